(** The tables of the grid transfer operators
    (multilevelSolver/PyNucleus_multilevelSolver/restriction_*.pxi), one line per call of
    enterData, in the order of the code: under which condition the line is reached, the local
    number of the DoF of the coarse cell, the number of the child, the local number of the DoF of the child,
    and the weight. The calls of add (first loop) are at the same places in the same order; this
    was checked when the tables were extracted from the text. Weights are the exact values of
    the decimal numbers in the code.

    With more than one way to cut a tetrahedron the code compares vertex numbers of the
    fine mesh; [Cut01_23] stands for [cells[sub4, 0] == cells[sub5, 0]] and
    [cells[sub4, 0] == cells[sub6, 0]], [Cut02_13] for the first and not the second, [Cut03_12] for
    not the first. *)
From Verif Require Import Util Lin LocalModel.

Inductive when := Always | Cut01_23 | Cut02_13 | Cut03_12.
Definition rentry := (when * nat * nat * nat * Qc)%type.

(** restriction_1D_P0.pxi:30-36; 2 children *)
Definition restriction_1D_P0 : list rentry :=
  [(Always, 0, 0, 0, qf 1 1); (Always, 0, 1, 0, qf 1 1)].

(** restriction_1D_P1.pxi:34-44; 2 children *)
Definition restriction_1D_P1 : list rentry :=
  [(Always, 0, 0, 0, qf 1 1); (Always, 0, 0, 1, qf 1 2); (Always, 1, 0, 1, qf 1 2); (Always, 1, 1, 1, qf 1 1)].

(** restriction_1D_P1_P2.pxi:33-42; 1 children *)
Definition restriction_1D_P1_P2 : list rentry :=
  [(Always, 0, 0, 0, qf 1 1); (Always, 0, 0, 2, qf 1 2); (Always, 1, 0, 1, qf 1 1); (Always, 1, 0, 2, qf 1 2)].

(** restriction_1D_P1_P3.pxi:35-46; 1 children *)
Definition restriction_1D_P1_P3 : list rentry :=
  [(Always, 0, 0, 0, qf 1 1); (Always, 0, 0, 2, qf 666666667 1000000000); (Always, 0, 0, 3, qf 333333333 1000000000); (Always, 1, 0, 1, qf 1 1);
   (Always, 1, 0, 2, qf 333333333 1000000000); (Always, 1, 0, 3, qf 666666667 1000000000)].

(** restriction_1D_P2.pxi:41-58; 2 children *)
Definition restriction_1D_P2 : list rentry :=
  [(Always, 0, 0, 0, qf 1 1); (Always, 0, 0, 2, qf 3 8); (Always, 0, 1, 2, qf (-1) 8); (Always, 1, 0, 2, qf (-1) 8); (Always, 1, 1, 1, qf 1 1);
   (Always, 1, 1, 2, qf 3 8); (Always, 2, 0, 1, qf 1 1); (Always, 2, 0, 2, qf 3 4); (Always, 2, 1, 2, qf 3 4)].

(** restriction_1D_P2_P3.pxi:39-54; 1 children *)
Definition restriction_1D_P2_P3 : list rentry :=
  [(Always, 0, 0, 0, qf 1 1); (Always, 0, 0, 2, qf 111111111 500000000); (Always, 0, 0, 3, qf (-111111111) 1000000000); (Always, 1, 0, 1, qf 1 1);
   (Always, 1, 0, 2, qf (-111111111) 1000000000); (Always, 1, 0, 3, qf 111111111 500000000); (Always, 2, 0, 2, qf 888888889 1000000000);
   (Always, 2, 0, 3, qf 888888889 1000000000)].

(** restriction_1D_P3.pxi:50-76; 2 children *)
Definition restriction_1D_P3 : list rentry :=
  [(Always, 0, 0, 0, qf 1 1); (Always, 0, 0, 1, qf (-1) 16); (Always, 0, 0, 2, qf 5 16); (Always, 0, 1, 3, qf 1 16); (Always, 1, 0, 1, qf (-1) 16);
   (Always, 1, 0, 2, qf 1 16); (Always, 1, 1, 1, qf 1 1); (Always, 1, 1, 3, qf 5 16); (Always, 2, 0, 1, qf 9 16); (Always, 2, 0, 2, qf 15 16);
   (Always, 2, 0, 3, qf 1 1); (Always, 2, 1, 3, qf (-5) 16); (Always, 3, 0, 1, qf 9 16); (Always, 3, 0, 2, qf (-5) 16); (Always, 3, 1, 2, qf 1 1);
   (Always, 3, 1, 3, qf 15 16)].

(** restriction_2D_P0.pxi:34-44; 4 children *)
Definition restriction_2D_P0 : list rentry :=
  [(Always, 0, 0, 0, qf 1 1); (Always, 0, 1, 0, qf 1 1); (Always, 0, 2, 0, qf 1 1); (Always, 0, 3, 0, qf 1 1)].

(** restriction_2D_P1.pxi:43-62; 4 children *)
Definition restriction_2D_P1 : list rentry :=
  [(Always, 0, 0, 0, qf 1 1); (Always, 0, 0, 1, qf 1 2); (Always, 0, 0, 2, qf 1 2); (Always, 1, 0, 1, qf 1 2); (Always, 1, 1, 0, qf 1 1);
   (Always, 1, 1, 1, qf 1 2); (Always, 2, 0, 2, qf 1 2); (Always, 2, 1, 1, qf 1 2); (Always, 2, 2, 0, qf 1 1)].

(** restriction_2D_P1_P2.pxi:40-56; 1 children *)
Definition restriction_2D_P1_P2 : list rentry :=
  [(Always, 0, 0, 0, qf 1 1); (Always, 0, 0, 3, qf 1 2); (Always, 0, 0, 5, qf 1 2); (Always, 1, 0, 1, qf 1 1); (Always, 1, 0, 3, qf 1 2);
   (Always, 1, 0, 4, qf 1 2); (Always, 2, 0, 2, qf 1 1); (Always, 2, 0, 4, qf 1 2); (Always, 2, 0, 5, qf 1 2)].

(** restriction_2D_P1_P3.pxi:49-74; 1 children *)
Definition restriction_2D_P1_P3 : list rentry :=
  [(Always, 0, 0, 0, qf 1 1); (Always, 0, 0, 3, qf 666666667 1000000000); (Always, 0, 0, 4, qf 333333333 1000000000);
   (Always, 0, 0, 7, qf 333333333 1000000000); (Always, 0, 0, 8, qf 666666667 1000000000); (Always, 0, 0, 9, qf 333333333 1000000000);
   (Always, 1, 0, 1, qf 1 1); (Always, 1, 0, 3, qf 333333333 1000000000); (Always, 1, 0, 4, qf 666666667 1000000000);
   (Always, 1, 0, 5, qf 666666667 1000000000); (Always, 1, 0, 6, qf 333333333 1000000000); (Always, 1, 0, 9, qf 333333333 1000000000);
   (Always, 2, 0, 2, qf 1 1); (Always, 2, 0, 5, qf 333333333 1000000000); (Always, 2, 0, 6, qf 666666667 1000000000);
   (Always, 2, 0, 7, qf 666666667 1000000000); (Always, 2, 0, 8, qf 333333333 1000000000); (Always, 2, 0, 9, qf 333333333 1000000000)].

(** restriction_2D_P2.pxi:79-134; 4 children *)
Definition restriction_2D_P2 : list rentry :=
  [(Always, 0, 0, 0, qf 1 1); (Always, 0, 0, 3, qf 3 8); (Always, 0, 0, 5, qf 3 8); (Always, 0, 1, 4, qf (-1) 8); (Always, 0, 1, 5, qf (-1) 8);
   (Always, 0, 2, 3, qf (-1) 8); (Always, 0, 2, 4, qf (-1) 8); (Always, 1, 0, 3, qf (-1) 8); (Always, 1, 0, 4, qf (-1) 8); (Always, 1, 1, 0, qf 1 1);
   (Always, 1, 1, 3, qf 3 8); (Always, 1, 1, 5, qf 3 8); (Always, 1, 2, 4, qf (-1) 8); (Always, 1, 2, 5, qf (-1) 8); (Always, 2, 0, 4, qf (-1) 8);
   (Always, 2, 0, 5, qf (-1) 8); (Always, 2, 1, 3, qf (-1) 8); (Always, 2, 1, 4, qf (-1) 8); (Always, 2, 2, 0, qf 1 1); (Always, 2, 2, 3, qf 3 8);
   (Always, 2, 2, 5, qf 3 8); (Always, 3, 0, 1, qf 1 1); (Always, 3, 0, 3, qf 3 4); (Always, 3, 0, 4, qf 1 2); (Always, 3, 1, 4, qf 1 2);
   (Always, 3, 1, 5, qf 3 4); (Always, 3, 2, 4, qf 1 4); (Always, 4, 0, 4, qf 1 4); (Always, 4, 1, 1, qf 1 1); (Always, 4, 1, 3, qf 3 4);
   (Always, 4, 1, 4, qf 1 2); (Always, 4, 2, 4, qf 1 2); (Always, 4, 2, 5, qf 3 4); (Always, 5, 0, 2, qf 1 1); (Always, 5, 0, 4, qf 1 2);
   (Always, 5, 0, 5, qf 3 4); (Always, 5, 1, 4, qf 1 4); (Always, 5, 2, 3, qf 3 4); (Always, 5, 2, 4, qf 1 2)].

(** restriction_2D_P2_P3.pxi:64-104; 1 children *)
Definition restriction_2D_P2_P3 : list rentry :=
  [(Always, 0, 0, 0, qf 1 1); (Always, 0, 0, 3, qf 111111111 500000000); (Always, 0, 0, 4, qf (-111111111) 1000000000);
   (Always, 0, 0, 7, qf (-111111111) 1000000000); (Always, 0, 0, 8, qf 111111111 500000000); (Always, 0, 0, 9, qf (-111111111) 1000000000);
   (Always, 1, 0, 1, qf 1 1); (Always, 1, 0, 3, qf (-111111111) 1000000000); (Always, 1, 0, 4, qf 111111111 500000000);
   (Always, 1, 0, 5, qf 111111111 500000000); (Always, 1, 0, 6, qf (-111111111) 1000000000); (Always, 1, 0, 9, qf (-111111111) 1000000000);
   (Always, 2, 0, 2, qf 1 1); (Always, 2, 0, 5, qf (-111111111) 1000000000); (Always, 2, 0, 6, qf 111111111 500000000);
   (Always, 2, 0, 7, qf 111111111 500000000); (Always, 2, 0, 8, qf (-111111111) 1000000000); (Always, 2, 0, 9, qf (-111111111) 1000000000);
   (Always, 3, 0, 3, qf 888888889 1000000000); (Always, 3, 0, 4, qf 888888889 1000000000); (Always, 3, 0, 9, qf 111111111 250000000);
   (Always, 4, 0, 5, qf 888888889 1000000000); (Always, 4, 0, 6, qf 888888889 1000000000); (Always, 4, 0, 9, qf 111111111 250000000);
   (Always, 5, 0, 7, qf 888888889 1000000000); (Always, 5, 0, 8, qf 888888889 1000000000); (Always, 5, 0, 9, qf 111111111 250000000)].

(** restriction_2D_P3.pxi:163-302; 4 children *)
Definition restriction_2D_P3 : list rentry :=
  [(Always, 0, 0, 0, qf 1 1); (Always, 0, 0, 1, qf (-1) 16); (Always, 0, 0, 2, qf (-1) 16); (Always, 0, 0, 3, qf 5 16); (Always, 0, 0, 5, qf (-1) 16);
   (Always, 0, 0, 6, qf (-1) 16); (Always, 0, 0, 8, qf 5 16); (Always, 0, 1, 5, qf 1 16); (Always, 0, 1, 8, qf 1 16); (Always, 0, 1, 9, qf 1 16);
   (Always, 0, 2, 3, qf 1 16); (Always, 0, 2, 6, qf 1 16); (Always, 0, 2, 9, qf 1 16); (Always, 1, 0, 1, qf (-1) 16); (Always, 1, 0, 3, qf 1 16);
   (Always, 1, 0, 6, qf 1 16); (Always, 1, 0, 9, qf 1 16); (Always, 1, 1, 0, qf 1 1); (Always, 1, 1, 1, qf (-1) 16); (Always, 1, 1, 3, qf 5 16);
   (Always, 1, 1, 5, qf (-1) 16); (Always, 1, 1, 6, qf (-1) 16); (Always, 1, 1, 8, qf 5 16); (Always, 1, 2, 5, qf 1 16); (Always, 1, 2, 8, qf 1 16);
   (Always, 1, 2, 9, qf 1 16); (Always, 2, 0, 2, qf (-1) 16); (Always, 2, 0, 5, qf 1 16); (Always, 2, 0, 8, qf 1 16); (Always, 2, 0, 9, qf 1 16);
   (Always, 2, 1, 1, qf (-1) 16); (Always, 2, 1, 3, qf 1 16); (Always, 2, 1, 6, qf 1 16); (Always, 2, 1, 9, qf 1 16); (Always, 2, 2, 0, qf 1 1);
   (Always, 2, 2, 3, qf 5 16); (Always, 2, 2, 5, qf (-1) 16); (Always, 2, 2, 6, qf (-1) 16); (Always, 2, 2, 8, qf 5 16); (Always, 3, 0, 1, qf 9 16);
   (Always, 3, 0, 3, qf 15 16); (Always, 3, 0, 4, qf 1 1); (Always, 3, 0, 5, qf 3 8); (Always, 3, 0, 6, qf 3 16); (Always, 3, 0, 9, qf 1 2);
   (Always, 3, 1, 5, qf (-3) 16); (Always, 3, 1, 8, qf (-5) 16); (Always, 3, 1, 9, qf (-1) 4); (Always, 3, 2, 6, qf (-1) 8); (Always, 3, 2, 9, qf (-1) 16);
   (Always, 4, 0, 1, qf 9 16); (Always, 4, 0, 3, qf (-5) 16); (Always, 4, 0, 6, qf (-3) 16); (Always, 4, 0, 9, qf (-1) 4); (Always, 4, 1, 5, qf 3 16);
   (Always, 4, 1, 6, qf 3 8); (Always, 4, 1, 7, qf 1 1); (Always, 4, 1, 8, qf 15 16); (Always, 4, 1, 9, qf 1 2); (Always, 4, 2, 5, qf (-1) 8);
   (Always, 4, 2, 9, qf (-1) 16); (Always, 5, 0, 6, qf (-1) 8); (Always, 5, 0, 9, qf (-1) 16); (Always, 5, 1, 1, qf 9 16); (Always, 5, 1, 3, qf 15 16);
   (Always, 5, 1, 4, qf 1 1); (Always, 5, 1, 5, qf 3 8); (Always, 5, 1, 6, qf 3 16); (Always, 5, 1, 9, qf 1 2); (Always, 5, 2, 5, qf (-3) 16);
   (Always, 5, 2, 8, qf (-5) 16); (Always, 5, 2, 9, qf (-1) 4); (Always, 6, 0, 5, qf (-1) 8); (Always, 6, 0, 9, qf (-1) 16); (Always, 6, 1, 1, qf 9 16);
   (Always, 6, 1, 3, qf (-5) 16); (Always, 6, 1, 6, qf (-3) 16); (Always, 6, 1, 9, qf (-1) 4); (Always, 6, 2, 5, qf 3 16); (Always, 6, 2, 6, qf 3 8);
   (Always, 6, 2, 7, qf 1 1); (Always, 6, 2, 8, qf 15 16); (Always, 6, 2, 9, qf 1 2); (Always, 7, 0, 2, qf 9 16); (Always, 7, 0, 5, qf (-3) 16);
   (Always, 7, 0, 8, qf (-5) 16); (Always, 7, 0, 9, qf (-1) 4); (Always, 7, 1, 6, qf (-1) 8); (Always, 7, 1, 9, qf (-1) 16); (Always, 7, 2, 3, qf 15 16);
   (Always, 7, 2, 4, qf 1 1); (Always, 7, 2, 5, qf 3 8); (Always, 7, 2, 6, qf 3 16); (Always, 7, 2, 9, qf 1 2); (Always, 8, 0, 2, qf 9 16);
   (Always, 8, 0, 5, qf 3 16); (Always, 8, 0, 6, qf 3 8); (Always, 8, 0, 7, qf 1 1); (Always, 8, 0, 8, qf 15 16); (Always, 8, 0, 9, qf 1 2);
   (Always, 8, 1, 5, qf (-1) 8); (Always, 8, 1, 9, qf (-1) 16); (Always, 8, 2, 3, qf (-5) 16); (Always, 8, 2, 6, qf (-3) 16); (Always, 8, 2, 9, qf (-1) 4);
   (Always, 9, 0, 5, qf 3 4); (Always, 9, 0, 6, qf 3 4); (Always, 9, 0, 9, qf 1 2); (Always, 9, 1, 5, qf 3 4); (Always, 9, 1, 6, qf 3 4);
   (Always, 9, 1, 9, qf 1 2); (Always, 9, 2, 5, qf 3 4); (Always, 9, 2, 6, qf 3 4); (Always, 9, 2, 9, qf 1 2); (Always, 9, 3, 9, qf 1 1)].

(** restriction_3D_P0.pxi:61-98; 8 children *)
Definition restriction_3D_P0 : list rentry :=
  [(Always, 0, 1, 0, qf 1 1); (Always, 0, 3, 0, qf 1 1); (Always, 0, 0, 0, qf 1 1); (Always, 0, 2, 0, qf 1 1); (Cut01_23, 0, 5, 0, qf 1 1);
   (Cut01_23, 0, 7, 0, qf 1 1); (Cut01_23, 0, 6, 0, qf 1 1); (Cut01_23, 0, 4, 0, qf 1 1); (Cut02_13, 0, 7, 0, qf 1 1); (Cut02_13, 0, 4, 0, qf 1 1);
   (Cut02_13, 0, 5, 0, qf 1 1); (Cut02_13, 0, 6, 0, qf 1 1); (Cut03_12, 0, 4, 0, qf 1 1); (Cut03_12, 0, 5, 0, qf 1 1); (Cut03_12, 0, 6, 0, qf 1 1);
   (Cut03_12, 0, 7, 0, qf 1 1)].

(** restriction_3D_P1.pxi:57-90; 8 children *)
Definition restriction_3D_P1 : list rentry :=
  [(Always, 0, 0, 3, qf 1 2); (Always, 0, 1, 0, qf 1 2); (Always, 0, 2, 0, qf 1 2); (Always, 0, 0, 0, qf 1 1); (Always, 1, 3, 1, qf 1 2);
   (Always, 1, 1, 0, qf 1 2); (Always, 1, 1, 2, qf 1 2); (Always, 1, 1, 1, qf 1 1); (Always, 2, 3, 2, qf 1 2); (Always, 2, 2, 2, qf 1 1);
   (Always, 2, 1, 2, qf 1 2); (Always, 2, 2, 0, qf 1 2); (Always, 3, 0, 3, qf 1 2); (Always, 3, 3, 1, qf 1 2); (Always, 3, 2, 3, qf 1 2);
   (Always, 3, 3, 3, qf 1 1)].

(** restriction_3D_P1_P2.pxi:49-74; 1 children *)
Definition restriction_3D_P1_P2 : list rentry :=
  [(Always, 0, 0, 0, qf 1 1); (Always, 0, 0, 4, qf 1 2); (Always, 0, 0, 6, qf 1 2); (Always, 0, 0, 7, qf 1 2); (Always, 1, 0, 1, qf 1 1);
   (Always, 1, 0, 4, qf 1 2); (Always, 1, 0, 5, qf 1 2); (Always, 1, 0, 8, qf 1 2); (Always, 2, 0, 2, qf 1 1); (Always, 2, 0, 5, qf 1 2);
   (Always, 2, 0, 6, qf 1 2); (Always, 2, 0, 9, qf 1 2); (Always, 3, 0, 3, qf 1 1); (Always, 3, 0, 7, qf 1 2); (Always, 3, 0, 8, qf 1 2);
   (Always, 3, 0, 9, qf 1 2)].

(** restriction_3D_P1_P3.pxi:73-122; 1 children *)
Definition restriction_3D_P1_P3 : list rentry :=
  [(Always, 0, 0, 0, qf 1 1); (Always, 0, 0, 4, qf 666666667 1000000000); (Always, 0, 0, 5, qf 333333333 1000000000);
   (Always, 0, 0, 8, qf 333333333 1000000000); (Always, 0, 0, 9, qf 666666667 1000000000); (Always, 0, 0, 10, qf 666666667 1000000000);
   (Always, 0, 0, 11, qf 333333333 1000000000); (Always, 0, 0, 16, qf 333333333 1000000000); (Always, 0, 0, 17, qf 333333333 1000000000);
   (Always, 0, 0, 19, qf 333333333 1000000000); (Always, 1, 0, 1, qf 1 1); (Always, 1, 0, 4, qf 333333333 1000000000);
   (Always, 1, 0, 5, qf 666666667 1000000000); (Always, 1, 0, 6, qf 666666667 1000000000); (Always, 1, 0, 7, qf 333333333 1000000000);
   (Always, 1, 0, 12, qf 666666667 1000000000); (Always, 1, 0, 13, qf 333333333 1000000000); (Always, 1, 0, 16, qf 333333333 1000000000);
   (Always, 1, 0, 17, qf 333333333 1000000000); (Always, 1, 0, 18, qf 333333333 1000000000); (Always, 2, 0, 2, qf 1 1);
   (Always, 2, 0, 6, qf 333333333 1000000000); (Always, 2, 0, 7, qf 666666667 1000000000); (Always, 2, 0, 8, qf 666666667 1000000000);
   (Always, 2, 0, 9, qf 333333333 1000000000); (Always, 2, 0, 14, qf 666666667 1000000000); (Always, 2, 0, 15, qf 333333333 1000000000);
   (Always, 2, 0, 16, qf 333333333 1000000000); (Always, 2, 0, 18, qf 333333333 1000000000); (Always, 2, 0, 19, qf 333333333 1000000000);
   (Always, 3, 0, 3, qf 1 1); (Always, 3, 0, 10, qf 333333333 1000000000); (Always, 3, 0, 11, qf 666666667 1000000000);
   (Always, 3, 0, 12, qf 333333333 1000000000); (Always, 3, 0, 13, qf 666666667 1000000000); (Always, 3, 0, 14, qf 333333333 1000000000);
   (Always, 3, 0, 15, qf 666666667 1000000000); (Always, 3, 0, 17, qf 333333333 1000000000); (Always, 3, 0, 18, qf 333333333 1000000000);
   (Always, 3, 0, 19, qf 333333333 1000000000)].

(** restriction_3D_P2.pxi:253-482; 8 children *)
Definition restriction_3D_P2 : list rentry :=
  [(Always, 0, 2, 4, qf (-1) 8); (Always, 0, 0, 7, qf 3 8); (Always, 0, 3, 4, qf (-1) 8); (Always, 0, 3, 7, qf (-1) 8); (Always, 0, 0, 6, qf 3 8);
   (Always, 0, 2, 6, qf (-1) 8); (Always, 0, 0, 4, qf 3 8); (Always, 0, 3, 6, qf (-1) 8); (Always, 0, 1, 6, qf (-1) 8); (Always, 0, 0, 0, qf 1 1);
   (Always, 0, 1, 4, qf (-1) 8); (Always, 0, 2, 7, qf (-1) 8); (Always, 0, 1, 7, qf (-1) 8); (Always, 1, 2, 8, qf (-1) 8); (Always, 1, 3, 5, qf (-1) 8);
   (Always, 1, 2, 4, qf (-1) 8); (Always, 1, 3, 8, qf (-1) 8); (Always, 1, 3, 4, qf (-1) 8); (Always, 1, 0, 8, qf (-1) 8); (Always, 1, 1, 4, qf 3 8);
   (Always, 1, 0, 5, qf (-1) 8); (Always, 1, 1, 1, qf 1 1); (Always, 1, 0, 4, qf (-1) 8); (Always, 1, 1, 5, qf 3 8); (Always, 1, 1, 8, qf 3 8);
   (Always, 1, 2, 5, qf (-1) 8); (Always, 2, 3, 5, qf (-1) 8); (Always, 2, 0, 9, qf (-1) 8); (Always, 2, 2, 6, qf 3 8); (Always, 2, 3, 9, qf (-1) 8);
   (Always, 2, 3, 6, qf (-1) 8); (Always, 2, 1, 6, qf (-1) 8); (Always, 2, 2, 2, qf 1 1); (Always, 2, 0, 5, qf (-1) 8); (Always, 2, 0, 6, qf (-1) 8);
   (Always, 2, 2, 5, qf 3 8); (Always, 2, 1, 9, qf (-1) 8); (Always, 2, 1, 5, qf (-1) 8); (Always, 2, 2, 9, qf 3 8); (Always, 3, 2, 9, qf (-1) 8);
   (Always, 3, 3, 8, qf 3 8); (Always, 3, 2, 8, qf (-1) 8); (Always, 3, 0, 9, qf (-1) 8); (Always, 3, 3, 9, qf 3 8); (Always, 3, 3, 7, qf 3 8);
   (Always, 3, 0, 8, qf (-1) 8); (Always, 3, 0, 7, qf (-1) 8); (Always, 3, 3, 3, qf 1 1); (Always, 3, 1, 9, qf (-1) 8); (Always, 3, 2, 7, qf (-1) 8);
   (Always, 3, 1, 7, qf (-1) 8); (Always, 3, 1, 8, qf (-1) 8); (Always, 4, 4, 0, qf 1 1); (Always, 4, 1, 4, qf 3 4); (Always, 4, 1, 7, qf 1 2);
   (Always, 4, 2, 4, qf 1 4); (Always, 4, 3, 4, qf 1 4); (Always, 4, 0, 8, qf 1 2); (Always, 4, 1, 6, qf 1 2); (Always, 4, 0, 4, qf 3 4);
   (Always, 4, 0, 5, qf 1 2); (Always, 5, 2, 5, qf 3 4); (Always, 5, 1, 9, qf 1 2); (Always, 5, 2, 4, qf 1 2); (Always, 5, 2, 8, qf 1 2);
   (Always, 5, 2, 1, qf 1 1); (Always, 5, 3, 5, qf 1 4); (Always, 5, 1, 6, qf 1 2); (Always, 5, 0, 5, qf 1 4); (Always, 5, 1, 5, qf 3 4);
   (Always, 6, 0, 2, qf 1 1); (Always, 6, 2, 7, qf 1 2); (Always, 6, 2, 4, qf 1 2); (Always, 6, 0, 9, qf 1 2); (Always, 6, 0, 6, qf 3 4);
   (Always, 6, 2, 6, qf 3 4); (Always, 6, 3, 6, qf 1 4); (Always, 6, 1, 6, qf 1 4); (Always, 6, 0, 5, qf 1 2); (Always, 7, 1, 7, qf 1 4);
   (Always, 7, 0, 3, qf 1 1); (Always, 7, 3, 7, qf 3 4); (Always, 7, 0, 9, qf 1 2); (Always, 7, 2, 7, qf 1 4); (Always, 7, 0, 8, qf 1 2);
   (Always, 7, 3, 4, qf 1 2); (Always, 7, 3, 6, qf 1 2); (Always, 7, 0, 7, qf 3 4); (Always, 8, 1, 9, qf 1 2); (Always, 8, 3, 1, qf 1 1);
   (Always, 8, 3, 5, qf 1 2); (Always, 8, 1, 7, qf 1 2); (Always, 8, 2, 8, qf 1 4); (Always, 8, 0, 8, qf 1 4); (Always, 8, 3, 8, qf 3 4);
   (Always, 8, 3, 4, qf 1 2); (Always, 8, 1, 8, qf 3 4); (Always, 9, 2, 7, qf 1 2); (Always, 9, 3, 5, qf 1 2); (Always, 9, 3, 2, qf 1 1);
   (Always, 9, 2, 9, qf 3 4); (Always, 9, 0, 9, qf 1 4); (Always, 9, 3, 9, qf 3 4); (Always, 9, 2, 8, qf 1 2); (Always, 9, 3, 6, qf 1 2);
   (Always, 9, 1, 9, qf 1 4); (Cut01_23, 0, 5, 4, qf (-1) 8); (Cut01_23, 1, 5, 4, qf (-1) 8); (Cut01_23, 2, 5, 4, qf (-1) 8);
   (Cut01_23, 3, 5, 4, qf (-1) 8); (Cut01_23, 4, 7, 7, qf 1 4); (Cut01_23, 5, 7, 7, qf 1 4); (Cut01_23, 6, 7, 7, qf 1 4); (Cut01_23, 7, 7, 7, qf 1 4);
   (Cut01_23, 8, 7, 7, qf 1 4); (Cut01_23, 9, 7, 7, qf 1 4); (Cut02_13, 0, 6, 6, qf (-1) 8); (Cut02_13, 1, 6, 6, qf (-1) 8);
   (Cut02_13, 2, 6, 6, qf (-1) 8); (Cut02_13, 3, 6, 6, qf (-1) 8); (Cut02_13, 4, 5, 9, qf 1 4); (Cut02_13, 5, 5, 9, qf 1 4); (Cut02_13, 6, 5, 9, qf 1 4);
   (Cut02_13, 7, 5, 9, qf 1 4); (Cut02_13, 8, 5, 9, qf 1 4); (Cut02_13, 9, 5, 9, qf 1 4); (Cut03_12, 0, 5, 7, qf (-1) 8); (Cut03_12, 1, 5, 7, qf (-1) 8);
   (Cut03_12, 2, 5, 7, qf (-1) 8); (Cut03_12, 3, 5, 7, qf (-1) 8); (Cut03_12, 4, 7, 8, qf 1 4); (Cut03_12, 5, 7, 8, qf 1 4); (Cut03_12, 6, 7, 8, qf 1 4);
   (Cut03_12, 7, 7, 8, qf 1 4); (Cut03_12, 8, 7, 8, qf 1 4); (Cut03_12, 9, 7, 8, qf 1 4)].

(** restriction_3D_P2_P3.pxi:109-194; 1 children *)
Definition restriction_3D_P2_P3 : list rentry :=
  [(Always, 0, 0, 0, qf 1 1); (Always, 0, 0, 4, qf 111111111 500000000); (Always, 0, 0, 5, qf (-111111111) 1000000000);
   (Always, 0, 0, 8, qf (-111111111) 1000000000); (Always, 0, 0, 9, qf 111111111 500000000); (Always, 0, 0, 10, qf 111111111 500000000);
   (Always, 0, 0, 11, qf (-111111111) 1000000000); (Always, 0, 0, 16, qf (-111111111) 1000000000); (Always, 0, 0, 17, qf (-111111111) 1000000000);
   (Always, 0, 0, 19, qf (-111111111) 1000000000); (Always, 1, 0, 1, qf 1 1); (Always, 1, 0, 4, qf (-111111111) 1000000000);
   (Always, 1, 0, 5, qf 111111111 500000000); (Always, 1, 0, 6, qf 111111111 500000000); (Always, 1, 0, 7, qf (-111111111) 1000000000);
   (Always, 1, 0, 12, qf 111111111 500000000); (Always, 1, 0, 13, qf (-111111111) 1000000000); (Always, 1, 0, 16, qf (-111111111) 1000000000);
   (Always, 1, 0, 17, qf (-111111111) 1000000000); (Always, 1, 0, 18, qf (-111111111) 1000000000); (Always, 2, 0, 2, qf 1 1);
   (Always, 2, 0, 6, qf (-111111111) 1000000000); (Always, 2, 0, 7, qf 111111111 500000000); (Always, 2, 0, 8, qf 111111111 500000000);
   (Always, 2, 0, 9, qf (-111111111) 1000000000); (Always, 2, 0, 14, qf 111111111 500000000); (Always, 2, 0, 15, qf (-111111111) 1000000000);
   (Always, 2, 0, 16, qf (-111111111) 1000000000); (Always, 2, 0, 18, qf (-111111111) 1000000000); (Always, 2, 0, 19, qf (-111111111) 1000000000);
   (Always, 3, 0, 3, qf 1 1); (Always, 3, 0, 10, qf (-111111111) 1000000000); (Always, 3, 0, 11, qf 111111111 500000000);
   (Always, 3, 0, 12, qf (-111111111) 1000000000); (Always, 3, 0, 13, qf 111111111 500000000); (Always, 3, 0, 14, qf (-111111111) 1000000000);
   (Always, 3, 0, 15, qf 111111111 500000000); (Always, 3, 0, 17, qf (-111111111) 1000000000); (Always, 3, 0, 18, qf (-111111111) 1000000000);
   (Always, 3, 0, 19, qf (-111111111) 1000000000); (Always, 4, 0, 4, qf 888888889 1000000000); (Always, 4, 0, 5, qf 888888889 1000000000);
   (Always, 4, 0, 16, qf 111111111 250000000); (Always, 4, 0, 17, qf 111111111 250000000); (Always, 5, 0, 6, qf 888888889 1000000000);
   (Always, 5, 0, 7, qf 888888889 1000000000); (Always, 5, 0, 16, qf 111111111 250000000); (Always, 5, 0, 18, qf 111111111 250000000);
   (Always, 6, 0, 8, qf 888888889 1000000000); (Always, 6, 0, 9, qf 888888889 1000000000); (Always, 6, 0, 16, qf 111111111 250000000);
   (Always, 6, 0, 19, qf 111111111 250000000); (Always, 7, 0, 10, qf 888888889 1000000000); (Always, 7, 0, 11, qf 888888889 1000000000);
   (Always, 7, 0, 17, qf 111111111 250000000); (Always, 7, 0, 19, qf 111111111 250000000); (Always, 8, 0, 12, qf 888888889 1000000000);
   (Always, 8, 0, 13, qf 888888889 1000000000); (Always, 8, 0, 17, qf 111111111 250000000); (Always, 8, 0, 18, qf 111111111 250000000);
   (Always, 9, 0, 14, qf 888888889 1000000000); (Always, 9, 0, 15, qf 888888889 1000000000); (Always, 9, 0, 18, qf 111111111 250000000);
   (Always, 9, 0, 19, qf 111111111 250000000)].

(** restriction_3D_P3.pxi:869-1714; 8 children *)
Definition restriction_3D_P3 : list rentry :=
  [(Always, 0, 2, 0, qf (-1) 16); (Always, 0, 3, 5, qf 1 16); (Always, 0, 2, 17, qf 1 16); (Always, 0, 2, 19, qf 1 16); (Always, 0, 3, 17, qf 1 16);
   (Always, 0, 4, 0, qf (-1) 16); (Always, 0, 0, 3, qf (-1) 16); (Always, 0, 1, 19, qf 1 16); (Always, 0, 0, 15, qf (-1) 16); (Always, 0, 0, 10, qf 5 16);
   (Always, 0, 1, 11, qf 1 16); (Always, 0, 0, 12, qf (-1) 16); (Always, 0, 0, 4, qf 5 16); (Always, 0, 0, 9, qf 5 16); (Always, 0, 1, 8, qf 1 16);
   (Always, 0, 0, 14, qf (-1) 16); (Always, 0, 3, 16, qf 1 16); (Always, 0, 1, 16, qf 1 16); (Always, 0, 3, 11, qf 1 16); (Always, 0, 3, 19, qf 1 16);
   (Always, 0, 0, 6, qf (-1) 16); (Always, 0, 2, 16, qf 1 16); (Always, 0, 2, 11, qf 1 16); (Always, 0, 0, 18, qf (-1) 16); (Always, 0, 0, 7, qf (-1) 16);
   (Always, 0, 0, 13, qf (-1) 16); (Always, 0, 1, 17, qf 1 16); (Always, 0, 2, 5, qf 1 16); (Always, 0, 0, 0, qf 1 1); (Always, 0, 3, 8, qf 1 16);
   (Always, 0, 1, 5, qf 1 16); (Always, 0, 2, 8, qf 1 16); (Always, 1, 2, 4, qf 1 16); (Always, 1, 2, 17, qf 1 16); (Always, 1, 3, 17, qf 1 16);
   (Always, 1, 1, 8, qf (-1) 16); (Always, 1, 4, 0, qf (-1) 16); (Always, 1, 1, 15, qf (-1) 16); (Always, 1, 1, 10, qf (-1) 16);
   (Always, 1, 3, 4, qf 1 16); (Always, 1, 0, 18, qf 1 16); (Always, 1, 0, 7, qf 1 16); (Always, 1, 1, 3, qf (-1) 16); (Always, 1, 1, 6, qf 5 16);
   (Always, 1, 3, 18, qf 1 16); (Always, 1, 1, 14, qf (-1) 16); (Always, 1, 0, 13, qf 1 16); (Always, 1, 1, 2, qf (-1) 16); (Always, 1, 2, 13, qf 1 16);
   (Always, 1, 3, 16, qf 1 16); (Always, 1, 1, 1, qf 1 1); (Always, 1, 3, 7, qf 1 16); (Always, 1, 0, 4, qf 1 16); (Always, 1, 3, 13, qf 1 16);
   (Always, 1, 0, 16, qf 1 16); (Always, 1, 0, 17, qf 1 16); (Always, 1, 1, 12, qf 5 16); (Always, 1, 2, 16, qf 1 16); (Always, 1, 1, 5, qf 5 16);
   (Always, 1, 1, 19, qf (-1) 16); (Always, 1, 2, 7, qf 1 16); (Always, 1, 1, 9, qf (-1) 16); (Always, 1, 2, 18, qf 1 16); (Always, 1, 1, 11, qf (-1) 16);
   (Always, 2, 2, 0, qf (-1) 16); (Always, 2, 0, 19, qf 1 16); (Always, 2, 0, 6, qf 1 16); (Always, 2, 2, 13, qf (-1) 16); (Always, 2, 1, 19, qf 1 16);
   (Always, 2, 2, 12, qf (-1) 16); (Always, 2, 2, 3, qf (-1) 16); (Always, 2, 2, 2, qf 1 1); (Always, 2, 1, 9, qf 1 16); (Always, 2, 2, 5, qf (-1) 16);
   (Always, 2, 0, 18, qf 1 16); (Always, 2, 2, 11, qf (-1) 16); (Always, 2, 3, 18, qf 1 16); (Always, 2, 1, 2, qf (-1) 16); (Always, 2, 2, 4, qf (-1) 16);
   (Always, 2, 1, 15, qf 1 16); (Always, 2, 1, 18, qf 1 16); (Always, 2, 3, 6, qf 1 16); (Always, 2, 3, 16, qf 1 16); (Always, 2, 1, 16, qf 1 16);
   (Always, 2, 0, 9, qf 1 16); (Always, 2, 2, 17, qf (-1) 16); (Always, 2, 1, 6, qf 1 16); (Always, 2, 3, 19, qf 1 16); (Always, 2, 2, 10, qf (-1) 16);
   (Always, 2, 2, 8, qf 5 16); (Always, 2, 0, 16, qf 1 16); (Always, 2, 2, 7, qf 5 16); (Always, 2, 0, 15, qf 1 16); (Always, 2, 3, 15, qf 1 16);
   (Always, 2, 2, 14, qf 5 16); (Always, 2, 3, 9, qf 1 16); (Always, 3, 2, 14, qf 1 16); (Always, 3, 0, 19, qf 1 16); (Always, 3, 2, 19, qf 1 16);
   (Always, 3, 2, 17, qf 1 16); (Always, 3, 3, 16, qf (-1) 16); (Always, 3, 3, 6, qf (-1) 16); (Always, 3, 0, 3, qf (-1) 16);
   (Always, 3, 3, 7, qf (-1) 16); (Always, 3, 1, 19, qf 1 16); (Always, 3, 2, 3, qf (-1) 16); (Always, 3, 2, 10, qf 1 16); (Always, 3, 3, 3, qf 1 1);
   (Always, 3, 0, 18, qf 1 16); (Always, 3, 1, 3, qf (-1) 16); (Always, 3, 3, 13, qf 5 16); (Always, 3, 0, 10, qf 1 16); (Always, 3, 3, 15, qf 5 16);
   (Always, 3, 1, 18, qf 1 16); (Always, 3, 3, 8, qf (-1) 16); (Always, 3, 3, 9, qf (-1) 16); (Always, 3, 3, 11, qf 5 16); (Always, 3, 2, 12, qf 1 16);
   (Always, 3, 1, 10, qf 1 16); (Always, 3, 3, 5, qf (-1) 16); (Always, 3, 0, 17, qf 1 16); (Always, 3, 1, 14, qf 1 16); (Always, 3, 1, 12, qf 1 16);
   (Always, 3, 1, 17, qf 1 16); (Always, 3, 0, 12, qf 1 16); (Always, 3, 3, 4, qf (-1) 16); (Always, 3, 0, 14, qf 1 16); (Always, 3, 2, 18, qf 1 16);
   (Always, 4, 0, 5, qf 1 1); (Always, 4, 2, 5, qf (-1) 8); (Always, 4, 1, 8, qf (-3) 16); (Always, 4, 1, 0, qf 9 16); (Always, 4, 0, 18, qf 3 16);
   (Always, 4, 1, 5, qf (-5) 16); (Always, 4, 3, 5, qf (-1) 8); (Always, 4, 3, 16, qf (-1) 16); (Always, 4, 2, 16, qf (-1) 16);
   (Always, 4, 0, 13, qf 3 16); (Always, 4, 0, 7, qf 3 16); (Always, 4, 3, 17, qf (-1) 16); (Always, 4, 0, 12, qf 3 8); (Always, 4, 1, 16, qf (-1) 4);
   (Always, 4, 0, 6, qf 3 8); (Always, 4, 0, 4, qf 15 16); (Always, 4, 0, 16, qf 1 2); (Always, 4, 1, 19, qf (-3) 16); (Always, 4, 0, 17, qf 1 2);
   (Always, 4, 1, 11, qf (-3) 16); (Always, 4, 2, 17, qf (-1) 16); (Always, 4, 1, 17, qf (-1) 4); (Always, 5, 0, 4, qf (-5) 16); (Always, 5, 1, 9, qf 3 8);
   (Always, 5, 1, 17, qf 1 2); (Always, 5, 0, 13, qf (-3) 16); (Always, 5, 1, 5, qf 15 16); (Always, 5, 2, 4, qf (-1) 8); (Always, 5, 1, 0, qf 9 16);
   (Always, 5, 1, 19, qf 3 16); (Always, 5, 3, 16, qf (-1) 16); (Always, 5, 2, 16, qf (-1) 16); (Always, 5, 1, 11, qf 3 16); (Always, 5, 1, 10, qf 3 8);
   (Always, 5, 3, 4, qf (-1) 8); (Always, 5, 1, 8, qf 3 16); (Always, 5, 1, 16, qf 1 2); (Always, 5, 1, 4, qf 1 1); (Always, 5, 0, 16, qf (-1) 4);
   (Always, 5, 0, 17, qf (-1) 4); (Always, 5, 3, 17, qf (-1) 16); (Always, 5, 0, 18, qf (-3) 16); (Always, 5, 2, 17, qf (-1) 16);
   (Always, 5, 0, 7, qf (-3) 16); (Always, 6, 2, 18, qf (-1) 4); (Always, 6, 1, 2, qf 9 16); (Always, 6, 0, 18, qf (-1) 16);
   (Always, 6, 3, 18, qf (-1) 16); (Always, 6, 2, 13, qf (-3) 16); (Always, 6, 2, 7, qf (-5) 16); (Always, 6, 1, 19, qf 3 16); (Always, 6, 1, 8, qf 3 8);
   (Always, 6, 3, 16, qf (-1) 16); (Always, 6, 1, 9, qf 3 16); (Always, 6, 0, 16, qf (-1) 16); (Always, 6, 0, 7, qf (-1) 8); (Always, 6, 1, 18, qf 1 2);
   (Always, 6, 2, 17, qf (-3) 16); (Always, 6, 1, 14, qf 3 8); (Always, 6, 1, 15, qf 3 16); (Always, 6, 1, 16, qf 1 2); (Always, 6, 2, 16, qf (-1) 4);
   (Always, 6, 1, 6, qf 15 16); (Always, 6, 3, 7, qf (-1) 8); (Always, 6, 2, 4, qf (-3) 16); (Always, 6, 1, 7, qf 1 1); (Always, 7, 1, 2, qf 9 16);
   (Always, 7, 0, 18, qf (-1) 16); (Always, 7, 3, 18, qf (-1) 16); (Always, 7, 2, 7, qf 15 16); (Always, 7, 2, 4, qf 3 16); (Always, 7, 2, 18, qf 1 2);
   (Always, 7, 2, 17, qf 3 16); (Always, 7, 1, 15, qf (-3) 16); (Always, 7, 2, 6, qf 1 1); (Always, 7, 0, 6, qf (-1) 8); (Always, 7, 2, 12, qf 3 8);
   (Always, 7, 3, 16, qf (-1) 16); (Always, 7, 2, 13, qf 3 16); (Always, 7, 2, 5, qf 3 8); (Always, 7, 0, 16, qf (-1) 16); (Always, 7, 1, 18, qf (-1) 4);
   (Always, 7, 1, 16, qf (-1) 4); (Always, 7, 3, 6, qf (-1) 8); (Always, 7, 2, 16, qf 1 2); (Always, 7, 1, 6, qf (-5) 16); (Always, 7, 1, 9, qf (-3) 16);
   (Always, 7, 1, 19, qf (-3) 16); (Always, 8, 2, 8, qf 15 16); (Always, 8, 1, 19, qf (-1) 16); (Always, 8, 2, 19, qf 1 2); (Always, 8, 0, 19, qf (-1) 4);
   (Always, 8, 2, 17, qf 3 16); (Always, 8, 3, 9, qf (-1) 8); (Always, 8, 2, 9, qf 1 1); (Always, 8, 3, 16, qf (-1) 16); (Always, 8, 1, 16, qf (-1) 16);
   (Always, 8, 3, 19, qf (-1) 16); (Always, 8, 1, 9, qf (-1) 8); (Always, 8, 0, 15, qf (-3) 16); (Always, 8, 0, 6, qf (-3) 16); (Always, 8, 2, 0, qf 9 16);
   (Always, 8, 0, 16, qf (-1) 4); (Always, 8, 2, 16, qf 1 2); (Always, 8, 2, 11, qf 3 16); (Always, 8, 0, 9, qf (-5) 16); (Always, 8, 2, 5, qf 3 16);
   (Always, 8, 2, 4, qf 3 8); (Always, 8, 0, 18, qf (-3) 16); (Always, 8, 2, 10, qf 3 8); (Always, 9, 0, 7, qf 3 8); (Always, 9, 1, 19, qf (-1) 16);
   (Always, 9, 0, 19, qf 1 2); (Always, 9, 2, 19, qf (-1) 4); (Always, 9, 2, 8, qf (-5) 16); (Always, 9, 3, 8, qf (-1) 8); (Always, 9, 0, 6, qf 3 16);
   (Always, 9, 0, 8, qf 1 1); (Always, 9, 0, 18, qf 3 16); (Always, 9, 3, 16, qf (-1) 16); (Always, 9, 1, 16, qf (-1) 16); (Always, 9, 2, 5, qf (-3) 16);
   (Always, 9, 2, 11, qf (-3) 16); (Always, 9, 3, 19, qf (-1) 16); (Always, 9, 0, 14, qf 3 8); (Always, 9, 2, 17, qf (-3) 16);
   (Always, 9, 2, 16, qf (-1) 4); (Always, 9, 1, 8, qf (-1) 8); (Always, 9, 0, 9, qf 15 16); (Always, 9, 0, 16, qf 1 2); (Always, 9, 2, 0, qf 9 16);
   (Always, 9, 0, 15, qf 3 16); (Always, 10, 2, 11, qf (-1) 8); (Always, 10, 3, 11, qf (-5) 16); (Always, 10, 0, 12, qf 3 16); (Always, 10, 3, 0, qf 9 16);
   (Always, 10, 0, 14, qf 3 16); (Always, 10, 1, 19, qf (-1) 16); (Always, 10, 0, 19, qf 1 2); (Always, 10, 3, 17, qf (-1) 4); (Always, 10, 0, 13, qf 3 8);
   (Always, 10, 3, 16, qf (-3) 16); (Always, 10, 0, 18, qf 3 16); (Always, 10, 0, 10, qf 15 16); (Always, 10, 3, 8, qf (-3) 16);
   (Always, 10, 1, 11, qf (-1) 8); (Always, 10, 0, 15, qf 3 8); (Always, 10, 0, 11, qf 1 1); (Always, 10, 3, 19, qf (-1) 4);
   (Always, 10, 1, 17, qf (-1) 16); (Always, 10, 3, 5, qf (-3) 16); (Always, 10, 2, 19, qf (-1) 16); (Always, 10, 0, 17, qf 1 2);
   (Always, 10, 2, 17, qf (-1) 16); (Always, 11, 3, 4, qf 3 8); (Always, 11, 3, 0, qf 9 16); (Always, 11, 1, 19, qf (-1) 16);
   (Always, 11, 0, 19, qf (-1) 4); (Always, 11, 3, 17, qf 1 2); (Always, 11, 3, 5, qf 3 16); (Always, 11, 0, 12, qf (-3) 16);
   (Always, 11, 2, 10, qf (-1) 8); (Always, 11, 3, 10, qf 1 1); (Always, 11, 3, 16, qf 3 16); (Always, 11, 0, 14, qf (-3) 16);
   (Always, 11, 0, 10, qf (-5) 16); (Always, 11, 3, 19, qf 1 2); (Always, 11, 1, 17, qf (-1) 16); (Always, 11, 3, 9, qf 3 8);
   (Always, 11, 0, 17, qf (-1) 4); (Always, 11, 1, 10, qf (-1) 8); (Always, 11, 3, 8, qf 3 16); (Always, 11, 3, 11, qf 15 16);
   (Always, 11, 2, 19, qf (-1) 16); (Always, 11, 0, 18, qf (-3) 16); (Always, 11, 2, 17, qf (-1) 16); (Always, 12, 3, 13, qf (-5) 16);
   (Always, 12, 3, 4, qf (-3) 16); (Always, 12, 1, 11, qf 3 8); (Always, 12, 1, 12, qf 15 16); (Always, 12, 0, 18, qf (-1) 16);
   (Always, 12, 1, 17, qf 1 2); (Always, 12, 3, 17, qf (-1) 4); (Always, 12, 1, 3, qf 9 16); (Always, 12, 3, 16, qf (-3) 16);
   (Always, 12, 3, 7, qf (-3) 16); (Always, 12, 1, 13, qf 1 1); (Always, 12, 1, 19, qf 3 16); (Always, 12, 3, 18, qf (-1) 4); (Always, 12, 1, 15, qf 3 8);
   (Always, 12, 0, 17, qf (-1) 16); (Always, 12, 1, 18, qf 1 2); (Always, 12, 0, 13, qf (-1) 8); (Always, 12, 2, 13, qf (-1) 8);
   (Always, 12, 1, 10, qf 3 16); (Always, 12, 2, 18, qf (-1) 16); (Always, 12, 1, 14, qf 3 16); (Always, 12, 2, 17, qf (-1) 16);
   (Always, 13, 0, 18, qf (-1) 16); (Always, 13, 0, 12, qf (-1) 8); (Always, 13, 3, 17, qf 1 2); (Always, 13, 1, 12, qf (-5) 16);
   (Always, 13, 1, 3, qf 9 16); (Always, 13, 3, 6, qf 3 8); (Always, 13, 3, 12, qf 1 1); (Always, 13, 1, 10, qf (-3) 16); (Always, 13, 3, 4, qf 3 16);
   (Always, 13, 3, 18, qf 1 2); (Always, 13, 1, 14, qf (-3) 16); (Always, 13, 0, 17, qf (-1) 16); (Always, 13, 3, 16, qf 3 16);
   (Always, 13, 1, 18, qf (-1) 4); (Always, 13, 3, 7, qf 3 16); (Always, 13, 3, 13, qf 15 16); (Always, 13, 2, 18, qf (-1) 16);
   (Always, 13, 2, 12, qf (-1) 8); (Always, 13, 3, 5, qf 3 8); (Always, 13, 1, 19, qf (-3) 16); (Always, 13, 2, 17, qf (-1) 16);
   (Always, 13, 1, 17, qf (-1) 4); (Always, 14, 0, 15, qf (-1) 8); (Always, 14, 2, 3, qf 9 16); (Always, 14, 1, 19, qf (-1) 16);
   (Always, 14, 3, 15, qf (-5) 16); (Always, 14, 0, 18, qf (-1) 16); (Always, 14, 2, 19, qf 1 2); (Always, 14, 3, 6, qf (-3) 16);
   (Always, 14, 2, 17, qf 3 16); (Always, 14, 2, 18, qf 1 2); (Always, 14, 2, 13, qf 3 8); (Always, 14, 2, 10, qf 3 16); (Always, 14, 3, 16, qf (-3) 16);
   (Always, 14, 2, 14, qf 15 16); (Always, 14, 2, 15, qf 1 1); (Always, 14, 3, 18, qf (-1) 4); (Always, 14, 1, 18, qf (-1) 16);
   (Always, 14, 2, 11, qf 3 8); (Always, 14, 3, 9, qf (-3) 16); (Always, 14, 2, 12, qf 3 16); (Always, 14, 1, 15, qf (-1) 8);
   (Always, 14, 3, 19, qf (-1) 4); (Always, 14, 0, 19, qf (-1) 16); (Always, 15, 3, 9, qf 3 16); (Always, 15, 1, 14, qf (-1) 8);
   (Always, 15, 2, 18, qf (-1) 4); (Always, 15, 2, 3, qf 9 16); (Always, 15, 1, 19, qf (-1) 16); (Always, 15, 0, 18, qf (-1) 16);
   (Always, 15, 2, 19, qf (-1) 4); (Always, 15, 0, 14, qf (-1) 8); (Always, 15, 2, 12, qf (-3) 16); (Always, 15, 1, 18, qf (-1) 16);
   (Always, 15, 2, 14, qf (-5) 16); (Always, 15, 3, 7, qf 3 8); (Always, 15, 3, 18, qf 1 2); (Always, 15, 3, 16, qf 3 16); (Always, 15, 2, 17, qf (-3) 16);
   (Always, 15, 3, 8, qf 3 8); (Always, 15, 3, 6, qf 3 16); (Always, 15, 3, 19, qf 1 2); (Always, 15, 3, 15, qf 15 16); (Always, 15, 2, 10, qf (-3) 16);
   (Always, 15, 0, 19, qf (-1) 16); (Always, 15, 3, 14, qf 1 1); (Always, 16, 0, 7, qf 3 4); (Always, 16, 2, 5, qf 3 4); (Always, 16, 2, 4, qf 3 4);
   (Always, 16, 0, 18, qf 3 8); (Always, 16, 0, 16, qf 1 2); (Always, 16, 0, 6, qf 3 4); (Always, 16, 1, 9, qf 3 4); (Always, 16, 2, 16, qf 1 2);
   (Always, 16, 1, 8, qf 3 4); (Always, 16, 1, 19, qf 3 8); (Always, 16, 1, 16, qf 1 2); (Always, 16, 3, 16, qf 1 8); (Always, 16, 2, 17, qf 3 8);
   (Always, 17, 2, 17, qf 1 8); (Always, 17, 3, 5, qf 3 4); (Always, 17, 0, 18, qf 3 8); (Always, 17, 3, 4, qf 3 4); (Always, 17, 1, 17, qf 1 2);
   (Always, 17, 1, 10, qf 3 4); (Always, 17, 3, 16, qf 3 8); (Always, 17, 1, 11, qf 3 4); (Always, 17, 1, 19, qf 3 8); (Always, 17, 3, 17, qf 1 2);
   (Always, 17, 0, 12, qf 3 4); (Always, 17, 0, 13, qf 3 4); (Always, 17, 0, 17, qf 1 2); (Always, 18, 3, 18, qf 1 2); (Always, 18, 2, 13, qf 3 4);
   (Always, 18, 1, 15, qf 3 4); (Always, 18, 3, 6, qf 3 4); (Always, 18, 3, 7, qf 3 4); (Always, 18, 1, 14, qf 3 4); (Always, 18, 1, 18, qf 1 2);
   (Always, 18, 3, 16, qf 3 8); (Always, 18, 0, 18, qf 1 8); (Always, 18, 1, 19, qf 3 8); (Always, 18, 2, 18, qf 1 2); (Always, 18, 2, 12, qf 3 4);
   (Always, 18, 2, 17, qf 3 8); (Always, 19, 3, 19, qf 1 2); (Always, 19, 3, 8, qf 3 4); (Always, 19, 2, 11, qf 3 4); (Always, 19, 0, 18, qf 3 8);
   (Always, 19, 0, 15, qf 3 4); (Always, 19, 2, 10, qf 3 4); (Always, 19, 3, 16, qf 3 8); (Always, 19, 0, 19, qf 1 2); (Always, 19, 2, 19, qf 1 2);
   (Always, 19, 1, 19, qf 1 8); (Always, 19, 0, 14, qf 3 4); (Always, 19, 3, 9, qf 3 4); (Always, 19, 2, 17, qf 3 8); (Cut01_23, 0, 7, 17, qf 1 16);
   (Cut01_23, 0, 5, 5, qf 1 16); (Cut01_23, 0, 4, 17, qf 1 16); (Cut01_23, 1, 5, 5, qf 1 16); (Cut01_23, 1, 6, 17, qf 1 16); (Cut01_23, 1, 5, 16, qf 1 16);
   (Cut01_23, 2, 7, 17, qf 1 16); (Cut01_23, 2, 5, 4, qf 1 16); (Cut01_23, 2, 5, 16, qf 1 16); (Cut01_23, 3, 5, 4, qf 1 16); (Cut01_23, 3, 4, 17, qf 1 16);
   (Cut01_23, 3, 6, 17, qf 1 16); (Cut01_23, 4, 5, 5, qf (-1) 16); (Cut01_23, 4, 7, 17, qf (-1) 8); (Cut01_23, 4, 4, 17, qf (-1) 8);
   (Cut01_23, 5, 5, 5, qf (-1) 16); (Cut01_23, 5, 5, 16, qf (-1) 8); (Cut01_23, 5, 4, 19, qf (-1) 8); (Cut01_23, 6, 5, 16, qf (-1) 16);
   (Cut01_23, 6, 5, 5, qf (-1) 8); (Cut01_23, 6, 4, 19, qf (-1) 8); (Cut01_23, 7, 7, 10, qf (-1) 8); (Cut01_23, 7, 5, 16, qf (-1) 16);
   (Cut01_23, 7, 7, 17, qf (-1) 8); (Cut01_23, 8, 7, 10, qf (-1) 8); (Cut01_23, 8, 5, 17, qf (-1) 16); (Cut01_23, 8, 5, 16, qf (-1) 8);
   (Cut01_23, 9, 5, 17, qf (-1) 16); (Cut01_23, 9, 5, 5, qf (-1) 8); (Cut01_23, 9, 4, 17, qf (-1) 8); (Cut01_23, 10, 4, 17, qf (-1) 16);
   (Cut01_23, 10, 7, 17, qf (-1) 8); (Cut01_23, 10, 5, 5, qf (-1) 8); (Cut01_23, 11, 7, 10, qf (-1) 8); (Cut01_23, 11, 4, 17, qf (-1) 16);
   (Cut01_23, 11, 4, 19, qf (-1) 8); (Cut01_23, 12, 6, 17, qf (-1) 16); (Cut01_23, 12, 5, 5, qf (-1) 8); (Cut01_23, 12, 5, 16, qf (-1) 8);
   (Cut01_23, 13, 7, 10, qf (-1) 8); (Cut01_23, 13, 6, 17, qf (-1) 16); (Cut01_23, 13, 4, 17, qf (-1) 8); (Cut01_23, 14, 4, 10, qf (-1) 16);
   (Cut01_23, 14, 7, 17, qf (-1) 8); (Cut01_23, 14, 5, 16, qf (-1) 8); (Cut01_23, 15, 4, 10, qf (-1) 16); (Cut01_23, 15, 4, 17, qf (-1) 8);
   (Cut01_23, 15, 4, 19, qf (-1) 8); (Cut01_23, 16, 5, 5, qf 1 4); (Cut01_23, 16, 5, 16, qf 1 4); (Cut01_23, 16, 5, 17, qf 1 4);
   (Cut01_23, 16, 6, 10, qf 1 2); (Cut01_23, 16, 4, 16, qf 1 1); (Cut01_23, 16, 6, 17, qf 1 2); (Cut01_23, 16, 7, 19, qf 1 2);
   (Cut01_23, 17, 5, 5, qf 1 4); (Cut01_23, 17, 7, 17, qf 1 2); (Cut01_23, 17, 4, 17, qf 1 4); (Cut01_23, 17, 6, 17, qf 1 4);
   (Cut01_23, 17, 6, 10, qf 1 2); (Cut01_23, 17, 5, 19, qf 1 1); (Cut01_23, 17, 5, 16, qf 1 2); (Cut01_23, 18, 5, 4, qf 1 4);
   (Cut01_23, 18, 7, 17, qf 1 2); (Cut01_23, 18, 6, 17, qf 1 4); (Cut01_23, 18, 5, 16, qf 1 4); (Cut01_23, 18, 5, 5, qf 1 2);
   (Cut01_23, 18, 7, 18, qf 1 1); (Cut01_23, 18, 7, 19, qf 1 2); (Cut01_23, 19, 5, 4, qf 1 4); (Cut01_23, 19, 4, 17, qf 1 4);
   (Cut01_23, 19, 5, 17, qf 1 4); (Cut01_23, 19, 5, 5, qf 1 2); (Cut01_23, 19, 5, 16, qf 1 2); (Cut01_23, 19, 6, 17, qf 1 2);
   (Cut01_23, 19, 6, 18, qf 1 1); (Cut02_13, 0, 4, 13, qf 1 16); (Cut02_13, 0, 6, 19, qf 1 16); (Cut02_13, 0, 5, 18, qf 1 16);
   (Cut02_13, 1, 6, 16, qf 1 16); (Cut02_13, 1, 6, 9, qf 1 16); (Cut02_13, 1, 6, 19, qf 1 16); (Cut02_13, 2, 5, 19, qf 1 16);
   (Cut02_13, 2, 6, 16, qf 1 16); (Cut02_13, 2, 4, 13, qf 1 16); (Cut02_13, 3, 6, 9, qf 1 16); (Cut02_13, 3, 4, 17, qf 1 16);
   (Cut02_13, 3, 5, 18, qf 1 16); (Cut02_13, 4, 6, 8, qf (-1) 8); (Cut02_13, 4, 6, 19, qf (-1) 16); (Cut02_13, 4, 5, 18, qf (-1) 8);
   (Cut02_13, 5, 4, 12, qf (-1) 8); (Cut02_13, 5, 4, 18, qf (-1) 8); (Cut02_13, 5, 6, 19, qf (-1) 16); (Cut02_13, 6, 4, 12, qf (-1) 8);
   (Cut02_13, 6, 7, 17, qf (-1) 8); (Cut02_13, 6, 4, 18, qf (-1) 16); (Cut02_13, 7, 6, 8, qf (-1) 8); (Cut02_13, 7, 5, 19, qf (-1) 8);
   (Cut02_13, 7, 4, 18, qf (-1) 16); (Cut02_13, 8, 4, 13, qf (-1) 16); (Cut02_13, 8, 4, 18, qf (-1) 8); (Cut02_13, 8, 5, 19, qf (-1) 8);
   (Cut02_13, 9, 6, 19, qf (-1) 8); (Cut02_13, 9, 4, 13, qf (-1) 16); (Cut02_13, 9, 5, 18, qf (-1) 8); (Cut02_13, 10, 7, 17, qf (-1) 8);
   (Cut02_13, 10, 6, 8, qf (-1) 8); (Cut02_13, 10, 7, 16, qf (-1) 16); (Cut02_13, 11, 4, 12, qf (-1) 8); (Cut02_13, 11, 5, 19, qf (-1) 8);
   (Cut02_13, 11, 7, 16, qf (-1) 16); (Cut02_13, 12, 6, 9, qf (-1) 16); (Cut02_13, 12, 7, 17, qf (-1) 8); (Cut02_13, 12, 4, 18, qf (-1) 8);
   (Cut02_13, 13, 6, 9, qf (-1) 16); (Cut02_13, 13, 5, 19, qf (-1) 8); (Cut02_13, 13, 5, 18, qf (-1) 8); (Cut02_13, 14, 4, 18, qf (-1) 8);
   (Cut02_13, 14, 6, 8, qf (-1) 8); (Cut02_13, 14, 4, 17, qf (-1) 16); (Cut02_13, 15, 4, 12, qf (-1) 8); (Cut02_13, 15, 4, 17, qf (-1) 16);
   (Cut02_13, 15, 5, 18, qf (-1) 8); (Cut02_13, 16, 5, 14, qf 1 2); (Cut02_13, 16, 5, 19, qf 1 2); (Cut02_13, 16, 6, 19, qf 1 4);
   (Cut02_13, 16, 4, 18, qf 1 4); (Cut02_13, 16, 5, 15, qf 1 4); (Cut02_13, 16, 5, 16, qf 1 1); (Cut02_13, 16, 7, 16, qf 1 2);
   (Cut02_13, 17, 7, 5, qf 1 2); (Cut02_13, 17, 6, 16, qf 1 2); (Cut02_13, 17, 5, 19, qf 1 2); (Cut02_13, 17, 7, 4, qf 1 4); (Cut02_13, 17, 6, 19, qf 1 4);
   (Cut02_13, 17, 7, 16, qf 1 4); (Cut02_13, 17, 4, 19, qf 1 1); (Cut02_13, 18, 7, 5, qf 1 2); (Cut02_13, 18, 4, 17, qf 1 4); (Cut02_13, 18, 7, 4, qf 1 4);
   (Cut02_13, 18, 7, 18, qf 1 1); (Cut02_13, 18, 4, 18, qf 1 4); (Cut02_13, 18, 6, 19, qf 1 2); (Cut02_13, 18, 7, 16, qf 1 2);
   (Cut02_13, 19, 5, 14, qf 1 2); (Cut02_13, 19, 6, 17, qf 1 1); (Cut02_13, 19, 6, 16, qf 1 2); (Cut02_13, 19, 4, 17, qf 1 4);
   (Cut02_13, 19, 7, 16, qf 1 4); (Cut02_13, 19, 5, 15, qf 1 4); (Cut02_13, 19, 6, 19, qf 1 2); (Cut03_12, 0, 4, 14, qf 1 16);
   (Cut03_12, 0, 4, 18, qf 1 16); (Cut03_12, 0, 6, 16, qf 1 16); (Cut03_12, 1, 6, 19, qf 1 16); (Cut03_12, 1, 6, 16, qf 1 16);
   (Cut03_12, 1, 5, 10, qf 1 16); (Cut03_12, 2, 4, 18, qf 1 16); (Cut03_12, 2, 7, 17, qf 1 16); (Cut03_12, 2, 5, 10, qf 1 16);
   (Cut03_12, 3, 6, 19, qf 1 16); (Cut03_12, 3, 4, 14, qf 1 16); (Cut03_12, 3, 7, 17, qf 1 16); (Cut03_12, 4, 5, 17, qf (-1) 16);
   (Cut03_12, 4, 7, 12, qf (-1) 8); (Cut03_12, 4, 4, 18, qf (-1) 8); (Cut03_12, 5, 5, 17, qf (-1) 16); (Cut03_12, 5, 7, 18, qf (-1) 8);
   (Cut03_12, 5, 4, 15, qf (-1) 8); (Cut03_12, 6, 7, 18, qf (-1) 8); (Cut03_12, 6, 5, 10, qf (-1) 16); (Cut03_12, 6, 6, 16, qf (-1) 8);
   (Cut03_12, 7, 5, 10, qf (-1) 16); (Cut03_12, 7, 4, 18, qf (-1) 8); (Cut03_12, 7, 7, 17, qf (-1) 8); (Cut03_12, 8, 4, 15, qf (-1) 8);
   (Cut03_12, 8, 5, 19, qf (-1) 16); (Cut03_12, 8, 7, 17, qf (-1) 8); (Cut03_12, 9, 7, 12, qf (-1) 8); (Cut03_12, 9, 5, 19, qf (-1) 16);
   (Cut03_12, 9, 6, 16, qf (-1) 8); (Cut03_12, 10, 6, 8, qf (-1) 16); (Cut03_12, 10, 4, 18, qf (-1) 8); (Cut03_12, 10, 6, 16, qf (-1) 8);
   (Cut03_12, 11, 7, 18, qf (-1) 8); (Cut03_12, 11, 6, 8, qf (-1) 16); (Cut03_12, 11, 7, 17, qf (-1) 8); (Cut03_12, 12, 4, 15, qf (-1) 8);
   (Cut03_12, 12, 6, 16, qf (-1) 8); (Cut03_12, 12, 7, 18, qf (-1) 16); (Cut03_12, 13, 7, 12, qf (-1) 8); (Cut03_12, 13, 7, 17, qf (-1) 8);
   (Cut03_12, 13, 7, 18, qf (-1) 16); (Cut03_12, 14, 4, 15, qf (-1) 8); (Cut03_12, 14, 7, 17, qf (-1) 16); (Cut03_12, 14, 4, 18, qf (-1) 8);
   (Cut03_12, 15, 7, 18, qf (-1) 8); (Cut03_12, 15, 7, 12, qf (-1) 8); (Cut03_12, 15, 7, 17, qf (-1) 16); (Cut03_12, 16, 7, 18, qf 1 2);
   (Cut03_12, 16, 6, 16, qf 1 4); (Cut03_12, 16, 4, 14, qf 1 2); (Cut03_12, 16, 5, 10, qf 1 4); (Cut03_12, 16, 5, 19, qf 1 4);
   (Cut03_12, 16, 7, 16, qf 1 1); (Cut03_12, 16, 7, 17, qf 1 2); (Cut03_12, 17, 6, 16, qf 1 4); (Cut03_12, 17, 4, 15, qf 1 2);
   (Cut03_12, 17, 4, 18, qf 1 2); (Cut03_12, 17, 5, 11, qf 1 4); (Cut03_12, 17, 7, 17, qf 1 2); (Cut03_12, 17, 7, 18, qf 1 4);
   (Cut03_12, 17, 4, 17, qf 1 1); (Cut03_12, 18, 4, 14, qf 1 2); (Cut03_12, 18, 5, 18, qf 1 1); (Cut03_12, 18, 7, 17, qf 1 4);
   (Cut03_12, 18, 5, 10, qf 1 4); (Cut03_12, 18, 4, 18, qf 1 2); (Cut03_12, 18, 6, 16, qf 1 2); (Cut03_12, 18, 7, 18, qf 1 4);
   (Cut03_12, 19, 7, 18, qf 1 2); (Cut03_12, 19, 6, 17, qf 1 1); (Cut03_12, 19, 4, 15, qf 1 2); (Cut03_12, 19, 7, 17, qf 1 4);
   (Cut03_12, 19, 5, 19, qf 1 4); (Cut03_12, 19, 6, 16, qf 1 2); (Cut03_12, 19, 5, 11, qf 1 4)].
