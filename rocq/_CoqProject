-Q theories Verif
theories/Util.v
theories/TupleDictModel.v
theories/TupleDictSpec.v
theories/TupleDictProofs.v
theories/TupleDictProofs2.v
theories/TupleDictProofs3.v
theories/TupleDictProofs4.v
theories/TupleDictTheorems.v
theories/IndexSetModel.v
theories/IndexSetSpec.v
theories/IndexSetProofs.v
theories/BitArrayProofs.v
theories/IndexSetProofs2.v
theories/IndexSetTheorems.v
theories/SparsityModel.v
theories/SparsitySpec.v
theories/SparsityProofs.v
theories/SparsityProofs2.v
theories/SparsityTheorems.v
theories/Lin.v
theories/CSRModel.v
theories/CSRSpec.v
theories/CSRProofs.v
theories/CSRTheorems.v
theories/Rows.v
theories/SSSProofs.v
theories/OpsProofs.v
theories/OpsProofs2.v
theories/OpsProofs3.v
theories/OpsProofs4.v
theories/SSSTheorems.v
theories/OpsTheorems.v
theories/TriModel.v
theories/TriSpec.v
theories/TriProofs.v
theories/TriProofs2.v
theories/TriProofs3.v
theories/TriProofs4.v
theories/TriTheorems.v
theories/DenseModel.v
theories/DenseSpec.v
theories/DenseProofs.v
theories/DenseTheorems.v
theories/LinR.v
theories/KrylovModel.v
theories/KrylovSpec.v
theories/KrylovProofs.v
theories/KrylovProofs2.v
theories/KrylovProofs3.v
theories/KrylovProofs4.v
theories/KrylovExamples.v
theories/KrylovTheorems.v
theories/SmootherModel.v
theories/SmootherSpec.v
theories/SmootherProofs.v
theories/SmootherProofs2.v
theories/SmootherProofs3.v
theories/SmootherProofs4.v
theories/SmootherProofs5.v
theories/SmootherTheorems.v
theories/MGModel.v
theories/MGSpec.v
theories/MGProofs.v
theories/MGProofs2.v
theories/MGProofs3.v
theories/MGProofs4.v
theories/MGTheorems.v
theories/MeshModel.v
theories/MeshSpec.v
theories/MeshProofs.v
theories/MeshProofs2.v
theories/MeshProofs3.v
theories/MeshProofs4.v
theories/MeshProofs5.v
theories/MeshGeom.v
theories/MeshGeom2.v
theories/MeshGeom3.v
theories/MeshProofs6.v
theories/MeshTheorems.v
theories/BoundaryModel.v
theories/BoundarySpec.v
theories/BoundaryProofs.v
theories/BoundaryProofs2.v
theories/BoundaryProofs3.v
theories/BoundaryTheorems.v
theories/MeshOpsModel.v
theories/MeshOpsSpec.v
theories/MeshOpsProofs.v
theories/MeshOpsTheorems.v
theories/BaryModel.v
theories/BarySpec.v
theories/BaryProofs.v
theories/BaryTheorems.v
theories/DoFMapModel.v
theories/DoFMapSpec.v
theories/DoFMapProofs.v
theories/DoFMapProofs2.v
theories/DoFMapProofs3.v
theories/DoFMapProofs4.v
theories/DoFMapProofs5.v
theories/DoFMapProofs6.v
theories/DoFMapTheorems.v
theories/LocalModel.v
theories/LocalTables.v
theories/LocalSpec.v
theories/LocalProofs.v
theories/LocalProofs2.v
theories/LocalProofs3.v
theories/LocalProofs4.v
theories/LocalProofs5.v
theories/LocalProofs6.v
theories/LocalProofs7.v
theories/LocalProofs8.v
theories/LocalTheorems.v
theories/RestrictionTables.v
theories/RestrictionModel.v
theories/RestrictionSpec.v
theories/RestrictionProofs.v
theories/RestrictionProofs2.v
theories/RestrictionProofs3.v
theories/RestrictionProofs4.v
theories/RestrictionProofs5.v
theories/RestrictionProofs6.v
theories/RestrictionProofs7.v
theories/RestrictionProofs8.v
theories/RestrictionTheorems.v
theories/TimeModel.v
theories/TimeSpec.v
theories/TimeProofs.v
theories/TimeProofs2.v
theories/TimeProofs3.v
theories/TimeProofs4.v
theories/TimeTheorems.v
theories/ReorderModel.v
theories/ReorderSpec.v
theories/ReorderProofs.v
theories/ReorderProofs2.v
theories/ReorderTheorems.v
theories/FormsModel.v
theories/AssemblyModel.v
theories/AssemblySpec.v
theories/AssemblyProofs.v
theories/AssemblyProofs2.v
theories/AssemblyProofs3.v
theories/AssemblyProofs4.v
theories/AssemblyProofs5.v
theories/AssemblyProofs6.v
theories/AssemblyProofs7.v
theories/AssemblyProofs8.v
theories/AssemblyTheorems.v
theories/FormsSpec.v
theories/FormsProofs.v
theories/FormsProofs2.v
theories/FormsProofs3.v
theories/FormsTheorems.v
theories/ExactSpec.v
theories/ExactProofs.v
theories/ExactTheorems.v
theories/CompModel.v
theories/CompSpec.v
theories/CompProofs.v
theories/CompProofs2.v
theories/CompProofs3.v
theories/CompProofs4.v
theories/CompProofs5.v
theories/CompProofs6.v
theories/CompProofs7.v
theories/CompProofs8.v
theories/CompProofs9.v
theories/CompProofs10.v
theories/CompProofs11.v
theories/InterpModel.v
theories/InterpSpec.v
theories/InterpProofs.v
theories/InterpProofs2.v
theories/InterpProofs3.v
theories/CompTheorems.v
theories/FactoryModel.v
theories/FactorySpec.v
theories/FactoryProofs.v
theories/FactoryTheorems.v
theories/GMRESModel.v
theories/GMRESSpec.v
theories/GMRESProofs.v
theories/GMRESProofs2.v
theories/GMRESProofs3.v
theories/GMRESProofs4.v
theories/GMRESProofs5.v
theories/GMRESTheorems.v
theories/OverlapModel.v
theories/OverlapSpec.v
theories/OverlapProofs.v
theories/OverlapProofs2.v
theories/OverlapProofs3.v
theories/OverlapProofs4.v
theories/OverlapProofs5.v
theories/OverlapTheorems.v
theories/DistModel.v
theories/DistSpec.v
theories/DistProofs.v
theories/DistProofs2.v
theories/DistProofs3.v
theories/DistProofs4.v
theories/DistProofs5.v
theories/DistTheorems.v
theories/NumberSpec.v
theories/NumberProofs.v
theories/NumberProofs2.v
theories/NumberProofs3.v
theories/NumberTheorems.v
theories/ClusterModel.v
theories/ClusterSpec.v
theories/ClusterProofs.v
theories/ClusterProofs2.v
theories/ClusterProofs3.v
theories/ClusterProofs4.v
theories/ClusterProofs5.v
theories/ClusterProofs6.v
theories/ClusterProofs7.v
theories/ClusterWitness.v
theories/ClusterWitness2.v
theories/ClusterTheorems.v
theories/ClusterTheorems2.v
theories/IJModel.v
theories/IJSpec.v
theories/IJProofs.v
theories/IJTheorems.v
theories/H2Model.v
theories/H2Spec.v
theories/H2Proofs.v
theories/H2Proofs2.v
theories/H2Proofs3.v
theories/H2Proofs4.v
theories/H2Proofs5.v
theories/H2Proofs6.v
theories/H2Proofs7.v
theories/H2Proofs8.v
theories/H2Proofs9.v
theories/H2Theorems.v
theories/TransferModel.v
theories/TransferSpec.v
theories/TransferProofs.v
theories/TransferProofs2.v
theories/TransferProofs3.v
theories/TransferProofs4.v
theories/TransferProofs5.v
theories/TransferProofs6.v
theories/TransferProofs7.v
theories/TransferTheorems.v
theories/NonlocalModel.v
theories/NonlocalModel2.v
theories/NonlocalSpec.v
theories/NonlocalProofs.v
theories/NonlocalProofs2.v
theories/NonlocalProofs3.v
theories/NonlocalProofs4.v
theories/NonlocalProofs5.v
theories/NonlocalProofs6.v
theories/NonlocalProofs7.v
theories/NonlocalTheorems.v
theories/ClusterAsmModel.v
theories/ClusterAsmSpec.v
theories/ClusterAsmProofs.v
theories/ClusterAsmProofs2.v
theories/ClusterAsmProofs3.v
theories/ClusterAsmProofs4.v
theories/ClusterAsmProofs5.v
theories/ClusterAsmProofs6.v
theories/ClusterAsmProofs7.v
theories/ClusterAsmProofs8.v
theories/ClusterAsmTheorems.v
theories/InteractionModel.v
theories/InteractionSpec.v
theories/InteractionProofs.v
theories/InteractionProofs2.v
theories/InteractionProofs3.v
theories/InteractionProofs4.v
theories/InteractionProofs5.v
theories/InteractionProofs6.v
theories/InteractionProofs7.v
theories/InteractionProofs8.v
theories/InteractionTheorems.v
theories/SubMapModel.v
theories/SubMapSpec.v
theories/SubMapProofs.v
theories/SubMapProofs2.v
theories/SubMapProofs3.v
theories/SubMapProofs4.v
theories/SubMapProofs5.v
theories/SubMapProofs6.v
theories/SubMapProofs7.v
theories/SubMapProofs8.v
theories/SubMapTheorems.v
theories/PartitionModel.v
theories/PartitionSpec.v
theories/PartitionProofs.v
theories/PartitionProofs2.v
theories/PartitionProofs3.v
theories/PartitionProofs4.v
theories/PartitionProofs5.v
theories/PartitionProofs6.v
theories/PartitionTheorems.v
theories/PartitionProofs7.v
theories/GalerkinModel.v
theories/GalerkinSpec.v
theories/GalerkinProofs.v
theories/GalerkinProofs2.v
theories/GalerkinProofs3.v
theories/GalerkinProofs4.v
theories/GalerkinProofs5.v
theories/GalerkinTheorems.v
theories/TwoPointModel.v
theories/TwoPointSpec.v
theories/TwoPointProofs.v
theories/TwoPointProofs2.v
theories/TwoPointProofs3.v
theories/TwoPointProofs4.v
theories/TwoPointProofs5.v
theories/TwoPointProofs6.v
theories/TwoPointTheorems.v
theories/TwoPointProofs7.v
theories/GraphModel.v
theories/GraphSpec.v
theories/GraphProofs.v
theories/GraphProofs2.v
theories/GraphProofs3.v
theories/GraphProofs4.v
theories/GraphTheorems.v
theories/BlockInvModel.v
theories/BlockInvSpec.v
theories/BlockInvProofs.v
theories/BlockInvProofs2.v
theories/BlockInvProofs3.v
theories/BlockInvProofs4.v
theories/BlockInvProofs5.v
theories/BlockInvTheorems.v
theories/CplxModel.v
theories/CplxSpec.v
theories/CplxProofs.v
theories/CplxProofs2.v
theories/CplxTheorems.v
theories/SchurModel.v
theories/SchurSpec.v
theories/SchurProofs.v
theories/SchurProofs2.v
theories/SchurTheorems.v
theories/QuadModel.v
theories/QuadSpec.v
theories/QuadProofs.v
theories/QuadProofs2.v
theories/QuadProofs3.v
theories/QuadProofs4.v
theories/QuadTheorems.v
