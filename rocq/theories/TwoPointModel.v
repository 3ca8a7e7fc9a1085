(** Functions of two points: coefficients of kernels and fractional orders.
    Models /repo/nl/PyNucleus_nl/twoPointFunctions_{SCALAR}.pxi (cited below as tS),
    /repo/nl/PyNucleus_nl/twoPointFunctions.pyx (cited as tp) and
    /repo/nl/PyNucleus_nl/fractionalOrders.pyx (cited as fO).

    An object is the record of what its class computes: the flag symmetric, the
    number of values, and the methods eval and evalPtr, which the classes write
    out separately.  Points are lists of real numbers, pointers to points as
    well.  The output argument value is the result; where the code returns
    without having written it the result is [Err EUninit], since __call__ passes
    an uninitialised array (tS:16-23).  A division by zero (NaN or infinity in
    the code, which is compiled with cdivision=True) is [Err EDiv0].  Optional
    real arguments are [option R]; [None] is a number that is not finite. *)
From Coq Require Import R_sqrt Ratan Rtrigo_def.
From Verif Require Import LinR InteractionModel.
Open Scope R_scope.
Set Default Proof Using "Type".

Definition req (a b : R) : bool := if Req_EM_T a b then true else false.
(** 0.5 *)
Definition hf : R := 1 / 2.
(** if not np.isfinite(c): c = 0.5*(a+b)   (tp:110-113, fO:307-310, 706-709, 793-796) *)
Definition mean_if_nan (a b : R) (c : option R) : R := match c with Some v => v | None => hf * (a + b) end.
(** (<INDEX_t>v): rounding towards zero; the range of INDEX_t is not modelled *)
Definition trunc (r : R) : Z := if Rle_dec 0 r then Int_part r else (- Int_part (- r))%Z.

Record tpf := mk_tp {
  tp_sym : bool;                                   (* symmetric *)
  tp_size : nat;                                   (* valueSize *)
  tp_const : option R;                             (* value of an instance of constantTwoPoint *)
  tp_eval : point -> point -> res R;
  tp_evalPtr : nat -> point -> point -> res R }.

(** twoPointFunction.__call__ for functions with one value, tS:16-23 *)
Definition tp_call (f : tpf) (x y : point) : res R := tp_eval f x y.

(** The base class, tS:9-11, 25-29 *)
Definition baseTwoPoint (sym : bool) (n : nat) : tpf :=
  mk_tp sym n None (fun _ _ => Err ENotImpl) (fun _ _ _ => Err ENotImpl).
(** constantTwoPoint, tS:139-151 *)
Definition constantTwoPoint (v : R) : tpf := mk_tp true 1 (Some v) (fun _ _ => Ok v) (fun _ _ _ => Ok v).
(** productTwoPoint, tS:110-130 *)
Definition productTwoPoint (f1 f2 : tpf) : res tpf :=
  _ <- guard (tp_size f1 =? 1)%nat EAssert ;;
  _ <- guard (tp_size f2 =? 1)%nat EAssert ;;
  Ok (mk_tp (tp_sym f1 && tp_sym f2) 1 None
       (fun x y => v1 <- tp_evalPtr f1 (length x) x y ;; v2 <- tp_evalPtr f2 (length x) x y ;; Ok (v1 * v2))
       (fun d x y => v1 <- tp_evalPtr f1 d x y ;; v2 <- tp_evalPtr f2 d x y ;; Ok (v1 * v2))).
(** twoPointFunction.__mul__, tS:73-83.  Functions with parameters
    (parametrizedTwoPointFunction) are not modelled, and the branches for
    numbers cannot be reached: other is declared to be a twoPointFunction. *)
Definition tp_mul (f1 f2 : tpf) : res tpf :=
  match tp_const f1, tp_const f2 with
  | Some a, Some b => Ok (constantTwoPoint (a * b))
  | _, _ => productTwoPoint f1 f2
  end.

(** fixedX, fixedY, diagonal and fixedTwoPointFunction.eval, tS:34-41, 86-107 *)
Inductive fixed_type := FIXED_X | FIXED_Y | DIAGONAL.
Definition fixedTwoPoint (f : tpf) (p : point) (t : fixed_type) (x : point) : res R :=
  _ <- guard (tp_size f =? 1)%nat EAssert ;;
  match t with
  | FIXED_X => tp_evalPtr f (length x) p x
  | FIXED_Y => tp_evalPtr f (length x) x p
  | DIAGONAL => tp_evalPtr f (length x) x x
  end.

(** lambdaTwoPoint, tp:29-46.  The python function is total here. *)
Definition lambdaTwoPoint (f : point -> point -> R) (sym : bool) : tpf :=
  mk_tp sym 1 None (fun x y => Ok (f x y)) (fun d x y => Ok (f (firstn d x) (firstn d y))).

(** matrixTwoPoint, tp:53-105.  The array n belongs to the object; its first dim
    entries are written before they are read, so every call may start with zeros. *)
Definition rentry (m : list (list R)) (i j : nat) : res R := row <- aget m i ;; aget row j.
Definition matrix_symmetric (m : list (list R)) : res bool :=
  for_range 0 (length m) (fun i s => for_range i (length m) (fun j s =>
    a <- rentry m i j ;; b <- rentry m j i ;;
    Ok (if rlt (1 / 10 ^ 12) (Rabs (a - b)) then false else s)) s) true.
(** self.n[i] = x[i] - y[i]; d += self.n[i]**2   (tp:76-78, 92-94) *)
Definition matrix_diff (m : list (list R)) (dim : nat) (x y : point) : res (list R * R) :=
  for_range 0 dim (fun i '(n, d) =>
    a <- aget x i ;; b <- aget y i ;; n' <- aset n i (a - b) ;; Ok (n', d + (a - b) * (a - b)))
    (repeat 0 (length m), 0).
(** self.n[i] /= d, then the sum of self.n[i]*self.mat[i, j]*self.n[j]   (tp:80-86, 97-103) *)
Definition matrix_form (m : list (list R)) (dim : nat) (n : list R) (d : R) : res R :=
  n <- for_range 0 dim (fun i n => a <- aget n i ;; _ <- guard (negb (req d 0)) EDiv0 ;; aset n i (a / d)) n ;;
  for_range 0 dim (fun i s => for_range 0 dim (fun j s =>
    a <- aget n i ;; c <- rentry m i j ;; b <- aget n j ;; Ok (s + a * c * b)) s) 0.
Definition matrixTwoPoint (m : list (list R)) : res tpf :=
  _ <- guard (forallb (fun row => (length row =? length m)%nat) m) EAssert ;;
  sym <- matrix_symmetric m ;;
  Ok (mk_tp sym 1 None
       (fun x y => '(n, d) <- matrix_diff m (length x) x y ;; matrix_form m (length x) n (sqrt d))
       (fun dim x y => '(n, d) <- matrix_diff m dim x y ;;
          if rlt 0 d then matrix_form m dim n (sqrt d) else Ok 1)).

(** leftRightTwoPoint, tp:108-149 *)
Definition left_right (ll lr rl rr itf : R) (x y : point) : res R :=
  x0 <- aget x 0 ;; y0 <- aget y 0 ;;
  Ok (if rlt x0 itf then (if rlt y0 itf then ll else lr) else (if rlt y0 itf then rl else rr)).
Definition leftRightTwoPoint (ll rr : R) (lr rl : option R) (itf : R) : tpf :=
  let lr := mean_if_nan ll rr lr in
  let rl := mean_if_nan ll rr rl in
  mk_tp (req rl lr) 1 None (left_right ll lr rl rr itf) (fun _ => left_right ll lr rl rr itf).

(** interfaceTwoPoint, tp:152-242 *)
Definition strip (p1 : R) : bool := rlt 0 p1 && rlt p1 1.
Definition interface1 (h1 h2 : R) (left : bool) (itf x0 y0 : R) : R :=
  if left then
    if rle x0 itf && rle y0 itf then 1
    else if rlt itf x0 && rlt itf y0 then 0
    else if rle x0 (itf - h2) && rlt itf y0 then 1
    else if rlt itf x0 && rle y0 (itf - h2) then 1
    else hf
  else
    if rle itf x0 && rle itf y0 then 1
    else if rlt x0 itf && rlt y0 itf then 0
    else if rle (itf + h1) x0 && rlt y0 itf then 1
    else if rlt x0 itf && rle (itf + h1) y0 then 1
    else hf.
Definition interface2 (h1 h2 : R) (left : bool) (itf x0 x1 y0 y1 : R) : R :=
  if left then
    if rle x0 itf && strip x1 then
      if rle y0 itf && strip y1 then 1
      else if rlt itf y0 && strip y1 then (if rle x0 (itf - h2) then 1 else hf)
      else 1
    else if rlt itf x0 && strip x1 then
      if rle y0 itf && strip y1 then hf
      else if rlt itf y0 && strip y1 then 0
      else 0
    else
      if rle y0 itf && strip y1 then 1 else 0
  else
    if rle itf x0 && strip x1 then
      if rle itf y0 && strip y1 then 1
      else if rlt y0 itf && strip y1 then (if rle (itf + h1) x0 then 1 else hf)
      else 1
    else if rlt x0 itf && strip x1 then
      if rle itf y0 && strip y1 then (if rle y0 (itf + h1) then hf else 1)
      else if rlt y0 itf && strip y1 then 0
      else 0
    else
      if rle itf y0 && strip y1 then 1 else 0.
Definition interface_evalPtr (h1 h2 : R) (left : bool) (itf : R) (dim : nat) (x y : point) : res R :=
  match dim with
  | 1%nat => x0 <- aget x 0 ;; y0 <- aget y 0 ;; Ok (interface1 h1 h2 left itf x0 y0)
  | 2%nat => x0 <- aget x 0 ;; x1 <- aget x 1 ;; y0 <- aget y 0 ;; y1 <- aget y 1 ;;
             Ok (interface2 h1 h2 left itf x0 x1 y0 y1)
  | _ => Err EUninit
  end.
Definition interfaceTwoPoint (h1 h2 : R) (left : bool) (itf : R) : tpf :=
  mk_tp true 1 None (fun x y => interface_evalPtr h1 h2 left itf (length x) x y) (interface_evalPtr h1 h2 left itf).

(** temperedTwoPoint, tp:245-271: eval uses self.dim, evalPtr its argument *)
Definition tempered (lam : R) (dim : nat) (x y : point) : res R :=
  r <- dist2 dim x y ;; Ok (exp (- lam * sqrt r)).
Definition temperedTwoPoint (lam : R) (dim : nat) : tpf :=
  mk_tp true 1 None (tempered lam dim) (fun d => tempered lam d).

(** tensorTwoPoint, tp:274-312: both methods use self.dim *)
Definition tensor (i j dim : nat) (x y : point) : res R :=
  n2 <- dist2 dim x y ;;
  if rlt 0 n2 then
    xi <- aget x i ;; yi <- aget y i ;; xj <- aget x j ;; yj <- aget y j ;;
    Ok ((xi - yi) * (xj - yj) / n2)
  else Ok 1.
Definition tensorTwoPoint (i j dim : nat) : tpf := mk_tp true 1 None (tensor i j dim) (fun _ => tensor i j dim).

(** smoothedLeftRightTwoPoint, tp:315-342: the values of the branches are overwritten *)
Definition smoothed_lr (vl vr r slope fac : R) (x y : point) : res R :=
  x0 <- aget x 0 ;;
  let value := if rlt x0 (- r) then Some vl else if rlt r x0 then Some vr else None in
  let value := Some (hf * (vl + vr) + hf * (vr - vl) * atan (x0 * slope) * fac) in
  match value with Some v => Ok v | None => Err EUninit end.
(** self.fac = 1./atan(r*slope)   (tp:322, fO:370) *)
Definition atan_fac (r slope : R) : res R :=
  if req (atan (r * slope)) 0 then Err EDiv0 else Ok (1 / atan (r * slope)).
Definition smoothedLeftRightTwoPoint (vl vr r slope : R) : res tpf :=
  fac <- atan_fac r slope ;;
  Ok (mk_tp false 1 None (smoothed_lr vl vr r slope fac) (fun _ => smoothed_lr vl vr r slope fac)).

(** unsymTwoPoint, tp:345-367 *)
Definition unsym (l r : R) (x y : point) : res R :=
  x0 <- aget x 0 ;; y0 <- aget y 0 ;; Ok (if rlt x0 y0 then l else r).
Definition unsymTwoPoint (l r : R) : tpf := mk_tp (req l r) 1 None (unsym l r) (fun _ => unsym l r).

(** inverseTwoPoint, tp:370-381 *)
Definition inv_value (v : R) : res R := if req v 0 then Err EDiv0 else Ok (1 / v).
Definition inverseTwoPoint (f : tpf) : tpf :=
  mk_tp (tp_sym f) 1 None
    (fun x y => v <- tp_eval f x y ;; inv_value v) (fun d x y => v <- tp_evalPtr f d x y ;; inv_value v).

(** What the lookup functions use of a DoFMap and of a cellFinder2: the number of
    a cell that contains the point, with the barycentric coordinates (None is
    -1), cell2dof, the local shape functions, and the numbers of local and of
    global degrees of freedom.  findCell and findCellPtr are the same here. *)
Record lookup := mk_lookup {
  lk_find : point -> option (nat * list R);
  lk_dofs : nat;                                   (* dm.dofs_per_element *)
  lk_num : nat;                                    (* dm.num_dofs *)
  lk_dof : nat -> nat -> Z;                        (* dm.cell2dof(cell, k) *)
  lk_shape : nat -> list R -> R }.                 (* value of local shape function k *)
Definition zaget {A} (l : list A) (i : Z) : res A := if (i <? 0)%Z then Err EOob else aget l (Z.to_nat i).
(** self.vals[k], tS:181-188, 194-201 (and 219-226, 232-239) *)
Definition lookup_vals (L : lookup) (cell : nat) (bary : list R) : list R :=
  map (fun k => if (0 <=? lk_dof L cell k)%Z then lk_shape L k bary else 0) (seq 0 (lk_dofs L)).
(** lookupTwoPoint, tS:160-246.  A[dof1, dof2] is read for negative dofs, too:
    with wraparound=False this is memory before the array. *)
Definition lookup_eval (L : lookup) (A : list (list R)) (x y : point) : res R :=
  match lk_find L x with
  | None => Ok 0
  | Some (c1, b1) =>
    let vals1 := lookup_vals L c1 b1 in
    match lk_find L y with
    | None => Ok 0
    | Some (c2, b2) =>
      let vals2 := lookup_vals L c2 b2 in
      for_range 0 (lk_dofs L) (fun k1 v => for_range 0 (lk_dofs L) (fun k2 v =>
        a <- aget vals1 k1 ;; row <- zaget A (lk_dof L c1 k1) ;; m <- zaget row (lk_dof L c2 k2) ;; b <- aget vals2 k2 ;;
        Ok (v + a * m * b)) v) 0
    end
  end.
Definition lookupTwoPoint (L : lookup) (A : list (list R)) (sym : bool) : tpf :=
  mk_tp sym 1 None (lookup_eval L A) (fun d x y => lookup_eval L A (firstn d x) (firstn d y)).

(** * Functions of one point with a gradient with respect to parameters *)

(** extendedFunction, fO:124-129; the gradient is written to an array of the caller *)
Record ext := mk_ext {
  ex_eval : point -> res R;
  ex_evalPtr : nat -> point -> res R;
  ex_grad : point -> buf R -> res (buf R);
  ex_gradPtr : nat -> point -> buf R -> res (buf R) }.
Definition no_grad (_ : point) (_ : buf R) : res (buf R) := Err ENotImpl.
(** constantExtended, fO:338-355 *)
Definition constantExtended (v : R) : ext :=
  mk_ext (fun _ => Ok v) (fun _ _ => Ok v) (fun _ g => wr g 0 1) (fun _ _ g => wr g 0 1).
(** smoothLeftRight, fO:361-384 *)
Definition slr_value (sl sr r slope fac : R) (x : point) : res R :=
  x0 <- aget x 0 ;;
  Ok (if rlt x0 (- r) then sl else if rlt r x0 then sr
      else hf * (sl + sr) + hf * (sr - sl) * atan (x0 * slope) * fac).
Definition smoothLeftRight (sl sr r slope : R) : res ext :=
  fac <- atan_fac r slope ;;
  Ok (mk_ext (slr_value sl sr r slope fac) (fun _ => slr_value sl sr r slope fac) no_grad (fun _ => no_grad)).
(** 3.0*pow(t, 2.0) - 2.0*pow(t, 3.0) *)
Definition cubic (t : R) : R := 3 * t ^ 2 - 2 * t ^ 3.
(** smoothStep, fO:390-441.  slope = 0.5/r *)
Definition ss_fac (r slope itf x0 : R) : R :=
  if rlt x0 (itf - r) then 0 else if rlt (itf + r) x0 then 1 else cubic ((x0 - itf) * slope + hf).
Definition ss_eval (sl sr r slope itf : R) (x : point) : res R :=
  x0 <- aget x 0 ;;
  Ok (if rlt x0 (itf - r) then sl else if rlt (itf + r) x0 then sr
      else sl + (sr - sl) * cubic ((x0 - itf) * slope + hf)).
(** grad[0] = 1.-fac; grad[1] = fac *)
Definition put2 (fac : R) (g : buf R) : res (buf R) := g <- wr g 0 (1 - fac) ;; wr g 1 fac.
Definition ss_grad (r slope itf : R) (x : point) (g : buf R) : res (buf R) :=
  x0 <- aget x 0 ;; put2 (ss_fac r slope itf x0) g.
Definition div (a b : R) : res R := if req b 0 then Err EDiv0 else Ok (a / b).
Definition smoothStep (sl sr r itf : R) : res ext :=
  slope <- div hf r ;;
  Ok (mk_ext (ss_eval sl sr r slope itf) (fun _ => ss_eval sl sr r slope itf)
             (ss_grad r slope itf) (fun _ => ss_grad r slope itf)).
(** linearStep, fO:447-494 *)
Definition ls_eval (sl sr r slope itf : R) (x : point) : res R :=
  x0 <- aget x 0 ;;
  Ok (if rlt x0 (itf - r) then sl else if rlt (itf + r) x0 then sr else sl + slope * (x0 - itf + r)).
Definition ls_grad (r itf : R) (x : point) (g : buf R) : res (buf R) :=
  x0 <- aget x 0 ;;
  fac <- (if rlt x0 (itf - r) then Ok 0 else if rlt (itf + r) x0 then Ok 1 else div (hf * (x0 - itf + r)) r) ;;
  put2 fac g.
Definition linearStep (sl sr r itf : R) : res ext :=
  slope <- div (hf * (sr - sl)) r ;;
  Ok (mk_ext (ls_eval sl sr r slope itf) (fun _ => ls_eval sl sr r slope itf) (ls_grad r itf) (fun _ => ls_grad r itf)).
(** smoothStepRadial, fO:500-535 *)
Definition ssr_eval (sl sr r slope radius : R) (dim : nat) (x : point) : res R :=
  r2 <- for_range 0 dim (fun k s => a <- aget x k ;; Ok (s + a ^ 2)) 0 ;;
  let rr := sqrt r2 in
  Ok (if rlt rr (radius - r) then sl else if rlt (radius + r) rr then sr
      else sl + (sr - sl) * cubic ((rr - radius) * slope + hf)).
Definition smoothStepRadial (sl sr r radius : R) : res ext :=
  slope <- div hf r ;;
  Ok (mk_ext (fun x => ssr_eval sl sr r slope radius (length x) x) (fun d x => ssr_eval sl sr r slope radius d x)
             no_grad (fun _ => no_grad)).
(** lookupExtended, fO:541-619 *)
Definition lke_eval (L : lookup) (u : list R) (x : point) : res R :=
  match lk_find L x with
  | None => Err EAssert
  | Some (cell, bary) =>
    for_range 0 (lk_dofs L) (fun k v =>
      let dof := lk_dof L cell k in
      if (0 <=? dof)%Z then a <- zaget u dof ;; Ok (v + lk_shape L k bary * a) else Ok v) 0
  end.
Definition lke_grad (L : lookup) (x : point) (g : buf R) : res (buf R) :=
  match lk_find L x with
  | None => Err EAssert
  | Some (cell, bary) =>
    g <- for_range 0 (lk_num L) (fun dof g => wr g dof 0) g ;;
    for_range 0 (lk_dofs L) (fun k g =>
      let dof := lk_dof L cell k in
      if (0 <=? dof)%Z then
        a <- rd g (Z.to_nat dof) ;; wr g (Z.to_nat dof) (a + lk_shape L k bary)
      else Ok g) g
  end.
Definition lookupExtended (L : lookup) (u : list R) : ext :=
  mk_ext (lke_eval L u) (fun d x => lke_eval L u (firstn d x)) (lke_grad L) (fun d x => lke_grad L (firstn d x)).

(** singleVariableTwoPointFunction, fO:132-144 *)
Definition singleVariableTwoPoint (e : ext) : tpf :=
  mk_tp false 1 None (fun x _ => ex_eval e x) (fun d x _ => ex_evalPtr e d x).

(** * Fractional orders *)

(** fractionalOrderBase, fO:45-66 *)
Record order := mk_order {
  o_tp : tpf; o_min : R; o_max : R;
  o_num : nat;                                     (* numParameters *)
  o_grad : point -> point -> buf R -> res (buf R);
  o_gradPtr : nat -> point -> point -> buf R -> res (buf R) }.
Definition no_grad2 (_ _ : point) (_ : buf R) : res (buf R) := Err ENotImpl.
(** constFractionalOrder, fO:72-87 *)
Definition constFractionalOrder (s : R) : order :=
  mk_order (mk_tp true 1 None (fun _ _ => Ok s) (fun _ _ _ => Ok s)) s s 1
    (fun _ _ g => wr g 0 1) (fun _ _ _ g => wr g 0 1).

(** The parameters c_params of a variableFractionalOrder: ten slots of the size of
    a pointer, uninitialised at first (fO:23-42, 99).  Offsets are numbers of slots. *)
Inductive sfun := FunLambda | FunConst | FunPiecewise | FunLeftRight | FunInnerOuter | FunIslands | FunLayers.
Inductive slot :=
| SFun (f : sfun) | SReal (r : R) | SIndex (n : nat) | SArray (l : list R)
| SLambda (f : point -> point -> R) | SFunction (f : point -> R).
Definition params := buf slot.
Definition fSFUN := 0%nat. Definition fDIM := 2%nat. Definition fLAMBDA := 3%nat.
Definition fSL := 3%nat. Definition fSR := 4%nat. Definition fR := 7%nat. Definition fSLOPE := 8%nat.
Definition fSLL := 3%nat. Definition fSRR := 4%nat. Definition fSLR := 5%nat. Definition fSRL := 6%nat.
(** PyMem_Malloc(NUM_FRAC_ORDER_PARAMS*OFFSET) *)
Definition new_params : params := alloc 10.
(** kernel_params.pxi:31-86 *)
Definition getREAL (p : params) (k : nat) : res R := s <- rd p k ;; match s with SReal r => Ok r | _ => Err EType end.
Definition getINDEX (p : params) (k : nat) : res nat := s <- rd p k ;; match s with SIndex n => Ok n | _ => Err EType end.
Definition getArray (p : params) (k : nat) : res (list R) := s <- rd p k ;; match s with SArray l => Ok l | _ => Err EType end.

(** lambdaFractionalOrderFun, fO:177-182 *)
Definition lambda_fun (p : params) (x y : point) : res R :=
  dim <- getINDEX p fDIM ;;
  s <- rd p fLAMBDA ;; match s with SLambda f => Ok (f (firstn dim x) (firstn dim y)) | _ => Err EType end.
(** constFractionalOrderFun, fO:197-200 *)
Definition const_fun (p : params) (x y : point) : res R := getREAL p fSL.
(** piecewiseConstantFractionalOrderFun, fO:220-234 *)
Definition piecewise_fun (p : params) (x y : point) : res R :=
  dim <- getINDEX p fDIM ;;
  s <- rd p fLAMBDA ;;
  match s with
  | SFunction ind =>
    n <- getINDEX p fSR ;; sVals <- getArray p fR ;;
    let bx := trunc (ind (firstn dim x)) in
    let bY := trunc (ind (firstn dim y)) in
    if ((0 <=? bx) && (bx <? Z.of_nat n) && (0 <=? bY) && (bY <? Z.of_nat n))%Z
    then aget sVals (Z.to_nat bx * n + Z.to_nat bY)%nat
    else Ok (- 1)
  | _ => Err EType
  end.
(** leftRightFractionalOrderFun, fO:285-302 *)
Definition leftRight_fun (p : params) (x y : point) : res R :=
  itf <- getREAL p fR ;; x0 <- aget x 0 ;; y0 <- aget y 0 ;;
  if rlt x0 itf then (if rlt y0 itf then getREAL p fSLL else getREAL p fSLR)
  else (if rlt y0 itf then getREAL p fSRL else getREAL p fSRR).
(** innerOuterFractionalOrderFun, fO:673-696: center is the memory from slot fSLOPE on *)
Definition innerOuter_fun (p : params) (x y : point) : res R :=
  dim <- getINDEX p fDIM ;;
  sii <- getREAL p fSLL ;; soo <- getREAL p fSRR ;; sio <- getREAL p fSLR ;; soi <- getREAL p fSRL ;;
  r2 <- getREAL p fR ;;
  '(r2x, r2y) <- for_range 0 dim (fun i '(r2x, r2y) =>
     c <- getREAL p (fSLOPE + i) ;; a <- aget x i ;; b <- aget y i ;;
     Ok (r2x + (a - c) * (a - c), r2y + (b - c) * (b - c))) (0, 0) ;;
  if rlt r2x r2 && rlt r2y r2 then Ok sii
  else if rle r2 r2x && rle r2 r2y then Ok soo
  else if rlt r2x r2 && rle r2 r2y then Ok sio
  else if rle r2 r2x && rlt r2y r2 then Ok soi
  else Err ENotImpl.
(** The loops of islandsFractionalOrderFun with break, fO:767-777 *)
Fixpoint in_island (n i : nat) (r r2 : R) (x : point) : res bool :=
  match n with
  | O => Ok true
  | S m => a <- aget x i ;;
           let p := Rabs a in
           if negb (rle r p && rle p r2) then Ok false else in_island m (S i) r r2 x
  end.
(** islandsFractionalOrderFun, fO:755-788 *)
Definition islands_fun (p : params) (x y : point) : res R :=
  dim <- getINDEX p fDIM ;;
  sii <- getREAL p fSLL ;; soo <- getREAL p fSRR ;; sio <- getREAL p fSLR ;; soi <- getREAL p fSRL ;;
  r <- getREAL p fR ;; r2 <- getREAL p fSLOPE ;;
  bx <- in_island dim 0 r r2 x ;;
  bY <- in_island dim 0 r r2 y ;;
  Ok (if bx then (if bY then sii else sio) else (if bY then soi else soo)).
(** The search of a layer, fO:835-844 (and 845-854) *)
Fixpoint seek_layer (n i : nat) (bs : list R) (c : R) : res nat :=
  match n with
  | O => Ok O
  | S m => lo <- aget bs i ;; hi <- aget bs (S i) ;;
           if rle lo c && rle c hi then Ok i else seek_layer m (S i) bs c
  end.
Definition layer_of (n : nat) (bs : list R) (c : R) : res nat :=
  b0 <- aget bs 0 ;;
  if rle c b0 then Ok O
  else bn <- aget bs n ;; if rle bn c then Ok (n - 1)%nat else seek_layer n 0 bs c.
(** layersFractionalOrderFun, fO:826-855 *)
Definition layers_fun (p : params) (x y : point) : res R :=
  dim <- getINDEX p fDIM ;; n <- getINDEX p fR ;; bs <- getArray p fSL ;; os <- getArray p fSR ;;
  cx <- zaget x (Z.of_nat dim - 1) ;; i <- layer_of n bs cx ;;
  cy <- zaget y (Z.of_nat dim - 1) ;; j <- layer_of n bs cy ;;
  aget os (i * n + j)%nat.

(** sFun = getFun(self.c_params, fSFUN); sFun(x, y, self.c_params)   (fO:101-109) *)
Definition call_fun (p : params) (x y : point) : res R :=
  s <- rd p fSFUN ;;
  match s with
  | SFun FunLambda => lambda_fun p x y
  | SFun FunConst => const_fun p x y
  | SFun FunPiecewise => piecewise_fun p x y
  | SFun FunLeftRight => leftRight_fun p x y
  | SFun FunInnerOuter => innerOuter_fun p x y
  | SFun FunIslands => islands_fun p x y
  | SFun FunLayers => layers_fun p x y
  | _ => Err EType
  end.
(** variableFractionalOrder, fO:96-109 *)
Definition variableOrder (smin smax : R) (sym : bool) (num : nat) (p : params) : res order :=
  _ <- guard (1 <=? num)%nat EAssert ;;
  Ok (mk_order (mk_tp sym 1 None (call_fun p) (fun _ => call_fun p)) smin smax num no_grad2 (fun _ => no_grad2)).
(** lambdaFractionalOrder, fO:185-194 *)
Definition lambdaFractionalOrder (dim : nat) (smin smax : R) (sym : bool) (f : point -> point -> R) : res order :=
  p <- wr new_params fDIM (SIndex dim) ;; p <- wr p fLAMBDA (SLambda f) ;; p <- wr p fSFUN (SFun FunLambda) ;;
  variableOrder smin smax sym 1 p.
(** variableConstFractionalOrder, fO:203-211 *)
Definition variableConstFractionalOrder (s : R) : res order :=
  p <- wr new_params fSL (SReal s) ;; p <- wr p fSFUN (SFun FunConst) ;;
  variableOrder s s true 1 p.
(** piecewiseConstantFractionalOrder, fO:237-265: entries that are not finite are
    replaced by the mean of the diagonal entries, which must be finite (here that
    is checked when they are used; the code raises the same error at the latest
    when it comes to that diagonal entry) *)
Definition oentry (m : list (list (option R))) (i j : nat) : res (option R) := row <- aget m i ;; aget row j.
Definition diag_entry (m : list (list (option R))) (i : nat) : res R :=
  v <- oentry m i i ;; match v with Some r => Ok r | None => Err EAssert end.
Definition fill_entry (m : list (list (option R))) (i j : nat) : res R :=
  v <- oentry m i j ;;
  match v with Some r => Ok r | None => a <- diag_entry m i ;; b <- diag_entry m j ;; Ok (hf * (a + b)) end.
Fixpoint res_map {A B} (f : A -> res B) (l : list A) : res (list B) :=
  match l with [] => Ok [] | a :: t => b <- f a ;; bs <- res_map f t ;; Ok (b :: bs) end.
Definition fill_table (m : list (list (option R))) : res (list (list R)) :=
  res_map (fun i => res_map (fun j => fill_entry m i j) (seq 0 (length m))) (seq 0 (length m)).
(** A.min() and A.max(); ValueError if there are no entries   (fO:250-251) *)
Definition list_min (l : list R) : res R := match l with [] => Err EValue | a :: t => Ok (fold_left Rmin t a) end.
Definition list_max (l : list R) : res R := match l with [] => Err EValue | a :: t => Ok (fold_left Rmax t a) end.
(** np.absolute(A-A.T).max() < tol   (fO:252) *)
Definition table_symmetric (tol : R) (t : list (list R)) : bool :=
  forallb (fun i => forallb (fun j =>
    match rentry t i j, rentry t j i with Ok a, Ok b => rlt (Rabs (a - b)) tol | _, _ => false end)
    (seq 0 (length t))) (seq 0 (length t)).
Definition piecewiseConstantFractionalOrder (dim : nat) (ind : point -> R) (sVals : list (list (option R))) : res order :=
  _ <- guard (forallb (fun row => (length row =? length sVals)%nat) sVals) EAssert ;;
  t <- fill_table sVals ;;
  smin <- list_min (concat t) ;; smax <- list_max (concat t) ;;
  p <- wr new_params fSFUN (SFun FunPiecewise) ;; p <- wr p fDIM (SIndex dim) ;;
  p <- wr p fSR (SIndex (length t)) ;; p <- wr p fR (SArray (concat t)) ;; p <- wr p fLAMBDA (SFunction ind) ;;
  variableOrder smin smax (table_symmetric (1 / 10 ^ 10) t) 1 p.
(** min([a, b, c, d]), max([a, b, c, d]) *)
Definition min4 (a b c d : R) : R := Rmin (Rmin (Rmin a b) c) d.
Definition max4 (a b c d : R) : R := Rmax (Rmax (Rmax a b) c) d.
(** leftRightFractionalOrder, fO:305-319 *)
Definition leftRightFractionalOrder (sll srr : R) (slr srl : option R) (itf : R) : res order :=
  let slr := mean_if_nan sll srr slr in
  let srl := mean_if_nan sll srr srl in
  p <- wr new_params fSFUN (SFun FunLeftRight) ;; p <- wr p fSLL (SReal sll) ;; p <- wr p fSRR (SReal srr) ;;
  p <- wr p fSLR (SReal slr) ;; p <- wr p fSRL (SReal srl) ;; p <- wr p fR (SReal itf) ;;
  variableOrder (min4 sll srr slr srl) (max4 sll srr slr srl) (req slr srl) 1 p.
(** innerOuterFractionalOrder, fO:699-718 *)
Definition innerOuterFractionalOrder (dim : nat) (sii soo r : R) (center : point) (sio soi : option R) : res order :=
  let sio := mean_if_nan sii soo sio in
  let soi := mean_if_nan sii soo soi in
  p <- wr new_params fDIM (SIndex dim) ;; p <- wr p fSFUN (SFun FunInnerOuter) ;;
  p <- wr p fSLL (SReal sii) ;; p <- wr p fSRR (SReal soo) ;; p <- wr p fSLR (SReal sio) ;; p <- wr p fSRL (SReal soi) ;;
  p <- wr p fR (SReal (r * r)) ;; c0 <- aget center 0 ;; p <- wr p fSLOPE (SReal c0) ;;
  variableOrder (min4 sii soo sio soi) (max4 sii soo sio soi) (req sio soi) 1 p.
(** islandsFractionalOrder, fO:791-805 *)
Definition islandsFractionalOrder (sii soo r r2 : R) (sio soi : option R) : res order :=
  let sio := mean_if_nan sii soo sio in
  let soi := mean_if_nan sii soo soi in
  p <- wr new_params fDIM (SIndex 2) ;; p <- wr p fSFUN (SFun FunIslands) ;;
  p <- wr p fSLL (SReal sii) ;; p <- wr p fSRR (SReal soo) ;; p <- wr p fSLR (SReal sio) ;; p <- wr p fSRL (SReal soi) ;;
  p <- wr p fR (SReal r) ;; p <- wr p fSLOPE (SReal r2) ;;
  variableOrder (min4 sii soo sio soi) (max4 sii soo sio soi) (req sio soi) 1 p.
(** layersFractionalOrder, fO:858-892; smin = np.inf is None *)
Definition layersFractionalOrder (dim : nat) (bs : list R) (os : list (list R)) : res order :=
  n <- (match length bs with O => Err EAssert | S n => Ok n end) ;;
  _ <- guard (length os =? n)%nat EAssert ;;
  _ <- guard (forallb (fun row => (length row =? n)%nat) os) EAssert ;;
  '(smin, smax, sym) <- for_range 0 n (fun i s => for_range 0 n (fun j '(smin, smax, sym) =>
     a <- rentry os i j ;; b <- rentry os j i ;;
     Ok (Some (match smin with None => a | Some m => Rmin m a end), Rmax smax a, if req a b then sym else false)) s)
     (None, 0, true) ;;
  match smin with
  | None => Err EOob                               (* no layers: &layerOrders[0, 0] does not exist *)
  | Some smin =>
    p <- wr new_params fDIM (SIndex dim) ;; p <- wr p fSFUN (SFun FunLayers) ;; p <- wr p fR (SIndex n) ;;
    p <- wr p fSL (SArray bs) ;; p <- wr p fSR (SArray (concat os)) ;;
    variableOrder smin smax sym 1 p
  end.
(** singleVariableUnsymmetricFractionalOrder, fO:153-170 *)
Definition singleVariableOrder (e : ext) (smin smax : R) (num : nat) : res order :=
  _ <- guard (1 <=? num)%nat EAssert ;;
  Ok (mk_order (mk_tp false 1 None (fun x _ => ex_eval e x) (fun d x _ => ex_evalPtr e d x)) smin smax num
        (fun x _ g => ex_grad e x g) (fun d x _ g => ex_gradPtr e d x g)).
(** constantNonSymFractionalOrder, fO:631-638 *)
Definition constantNonSymFractionalOrder (s : R) : res order := singleVariableOrder (constantExtended s) s s 1.
(** smoothedLeftRightFractionalOrder, fO:641-645 *)
Definition smoothedLeftRightFractionalOrder (sl sr r itf : R) : res order :=
  e <- smoothStep sl sr r itf ;; singleVariableOrder e (Rmin sl sr) (Rmax sl sr) 2.
(** linearLeftRightFractionalOrder, fO:648-651 *)
Definition linearLeftRightFractionalOrder (sl sr r itf : R) : res order :=
  e <- linearStep sl sr r itf ;; singleVariableOrder e (Rmin sl sr) (Rmax sl sr) 2.
(** smoothedInnerOuterFractionalOrder, fO:654-657: numParameters is left at its default 0 *)
Definition smoothedInnerOuterFractionalOrder (sl sr r radius : R) : res order :=
  e <- smoothStepRadial sl sr r radius ;; singleVariableOrder e (Rmin sl sr) (Rmax sl sr) 0.
(** feFractionalOrder, fO:660-667 *)
Definition feFractionalOrder (L : lookup) (u : list R) (smin smax : R) : res order :=
  singleVariableOrder (lookupExtended L u) smin smax (lk_num L).
(** sumFractionalOrder, fO:735-752: eval is overwritten, evalPtr is the one of
    variableFractionalOrder, whose parameters have not been set *)
Definition sumFractionalOrder (s1 : order) (f1 : R) (s2 : order) (f2 : R) : res order :=
  Ok (mk_order (mk_tp (tp_sym (o_tp s1) && tp_sym (o_tp s2)) 1 None
        (fun x y => v1 <- tp_evalPtr (o_tp s1) (length x) x y ;; v2 <- tp_evalPtr (o_tp s2) (length x) x y ;; Ok (v1 * v2))
        (fun _ => call_fun new_params))
      (Rmin (o_min s1) (o_min s2)) (Rmax (o_max s1) (o_max s2)) 1 no_grad2 (fun _ => no_grad2)).

(** * All of them: expressions with the constructors, and the objects they make *)
Inductive oexpr :=
| OConst (s : R) | OVarConst (s : R)
| OLambda (dim : nat) (smin smax : R) (sym : bool) (f : point -> point -> R)
| OPiecewise (dim : nat) (ind : point -> R) (sVals : list (list (option R)))
| OLeftRight (sll srr : R) (slr srl : option R) (itf : R)
| OInnerOuter (dim : nat) (sii soo r : R) (center : point) (sio soi : option R)
| OIslands (sii soo r r2 : R) (sio soi : option R)
| OLayers (dim : nat) (bs : list R) (os : list (list R))
| OConstNonSym (s : R)
| OSmoothedLeftRight (sl sr r itf : R) | OLinearLeftRight (sl sr r itf : R) | OSmoothedInnerOuter (sl sr r radius : R)
| OFe (L : lookup) (u : list R) (smin smax : R)
| OSum (a : oexpr) (f1 : R) (b : oexpr) (f2 : R).
(** The arguments of sumFractionalOrder are declared to be variableFractionalOrder, fO:740 *)
Definition variable_order (e : oexpr) : bool := match e with OConst _ => false | _ => true end.
Fixpoint build_order (e : oexpr) : res order :=
  match e with
  | OConst s => Ok (constFractionalOrder s)
  | OVarConst s => variableConstFractionalOrder s
  | OLambda dim smin smax sym f => lambdaFractionalOrder dim smin smax sym f
  | OPiecewise dim ind sVals => piecewiseConstantFractionalOrder dim ind sVals
  | OLeftRight sll srr slr srl itf => leftRightFractionalOrder sll srr slr srl itf
  | OInnerOuter dim sii soo r c sio soi => innerOuterFractionalOrder dim sii soo r c sio soi
  | OIslands sii soo r r2 sio soi => islandsFractionalOrder sii soo r r2 sio soi
  | OLayers dim bs os => layersFractionalOrder dim bs os
  | OConstNonSym s => constantNonSymFractionalOrder s
  | OSmoothedLeftRight sl sr r itf => smoothedLeftRightFractionalOrder sl sr r itf
  | OLinearLeftRight sl sr r itf => linearLeftRightFractionalOrder sl sr r itf
  | OSmoothedInnerOuter sl sr r radius => smoothedInnerOuterFractionalOrder sl sr r radius
  | OFe L u smin smax => feFractionalOrder L u smin smax
  | OSum a f1 b f2 => _ <- guard (variable_order a && variable_order b) EType ;; s1 <- build_order a ;; s2 <- build_order b ;; sumFractionalOrder s1 f1 s2 f2
  end.
Inductive texpr :=
| XBase (sym : bool) (n : nat) | XConst (v : R) | XLambda (f : point -> point -> R) (sym : bool) | XMatrix (m : list (list R))
| XLeftRight (ll rr : R) (lr rl : option R) (itf : R) | XInterface (h1 h2 : R) (left : bool) (itf : R)
| XTempered (lam : R) (dim : nat) | XTensor (i j dim : nat) | XSmoothed (vl vr r slope : R) | XUnsym (l r : R)
| XLookup (L : lookup) (A : list (list R)) (sym : bool) | XSingle (e : ext) | XOrder (o : oexpr)
| XInverse (e : texpr) | XMul (a b : texpr).
Fixpoint build (e : texpr) : res tpf :=
  match e with
  | XBase sym n => Ok (baseTwoPoint sym n)
  | XConst v => Ok (constantTwoPoint v)
  | XLambda f sym => Ok (lambdaTwoPoint f sym)
  | XMatrix m => matrixTwoPoint m
  | XLeftRight ll rr lr rl itf => Ok (leftRightTwoPoint ll rr lr rl itf)
  | XInterface h1 h2 lf itf => Ok (interfaceTwoPoint h1 h2 lf itf)
  | XTempered lam dim => Ok (temperedTwoPoint lam dim)
  | XTensor i j dim => Ok (tensorTwoPoint i j dim)
  | XSmoothed vl vr r slope => smoothedLeftRightTwoPoint vl vr r slope
  | XUnsym l r => Ok (unsymTwoPoint l r)
  | XLookup L A sym => Ok (lookupTwoPoint L A sym)
  | XSingle e => Ok (singleVariableTwoPoint e)
  | XOrder o => s <- build_order o ;; Ok (o_tp s)
  | XInverse e => f <- build e ;; Ok (inverseTwoPoint f)
  | XMul a b => f <- build a ;; g <- build b ;; tp_mul f g
  end.
