-Q theories Verif
theories/FieldDef.v
theories/GF.v
theories/ModDef.v
theories/ArithModel.v
theories/ArithSpec.v
theories/ArithProofs.v
theories/FFTModel.v
theories/FFTProofs.v
theories/MSMModel.v
theories/MSMSpec.v
theories/MSMProofs.v
theories/RootsModel.v
theories/RootsProofs.v
theories/SparseModel.v
theories/SparseSpec.v
theories/SparseProofs.v
theories/SparseProofs2.v
theories/TModel.v
theories/TProofs.v
theories/CircModel.v
theories/SyModel.v
theories/TraceModel.v
theories/CircSpec.v
theories/CircProofs.v
theories/CircProofs2.v
theories/SyProofs.v
theories/SyProofs2.v
theories/TraceProofs.v
theories/ClaimModel.v
theories/SProofs.v
theories/SatProofs.v
theories/SyEvents.v
theories/Props_Arith.v
theories/Props_Poly.v
theories/Props_Circ.v
theories/GadgetModel.v
theories/GadgetSpec.v
theories/GadgetProofs.v
theories/PointSpec.v
theories/PointProofs.v
theories/EndoSpec.v
theories/EndoProofs.v
theories/TxzProofs.v
theories/SimProofs.v
theories/PointExample.v
theories/Props_Gadget.v
theories/Runs.v
theories/SpongeModel.v
theories/SpongeSpec.v
theories/SpongeProofs.v
theories/SpongeHash.v
theories/PrimeCert.v
theories/Pasta.v
theories/Props_Sponge.v
theories/RegModel.v
theories/RegSpec.v
theories/RegProofs.v
theories/RegProofs2.v
theories/Props_Reg.v
theories/StageModel.v
theories/StageSpec.v
theories/StageProofs.v
theories/StageProofs2.v
theories/StageProofs3.v
theories/Props_Stage.v
theories/PrimModel.v
theories/PrimProofs.v
theories/Props_Prim.v
theories/FoldModel.v
theories/FoldSpec.v
theories/FoldProofs.v
theories/FoldProofs2.v
theories/FoldProofs3.v
theories/Props_Fold.v
theories/PcdModel.v
theories/PcdSpec.v
theories/PcdProofs.v
theories/PcdProofs2.v
theories/Props_Pcd.v
theories/EscModel.v
theories/EscSpec.v
theories/EscProofs.v
theories/Props_Esc.v
theories/AppModel.v
theories/AppSpec.v
theories/AppProofs.v
theories/Props_App.v
theories/RecModel.v
theories/RecSpec.v
theories/RecProofs.v
theories/RecProofs2.v
theories/RecProofs3.v
theories/RecProofs4.v
theories/RecProofs5.v
theories/Props_Rec.v
theories/Props_RecEx.v
theories/QvModel.v
theories/QvProofs.v
theories/QvProofs2.v
theories/Props_Qv.v
theories/Props_Qv2.v
theories/Props_QvEx.v
theories/ParSpec.v
theories/EmuModel.v
theories/CompileModel.v
theories/ParProofs.v
theories/ParProofs2.v
theories/ParProofs3.v
theories/CompileSpec.v
theories/EmuProofs.v
theories/CompileProofs.v
theories/Props_Par.v
theories/CompileSpec2.v
theories/CompileProofs2.v
theories/CompileProofs3.v
theories/Props_Comp.v
theories/RecStageModel.v
theories/RecStageSpec.v
theories/RecStageProofs.v
theories/Props_Step.v
theories/Props_StepEx.v
theories/VerifyModel.v
theories/VerifySpec.v
theories/VerifySpec2.v
theories/VerifyProofs.v
theories/VerifyProofs2.v
theories/VerifyProofs3.v
theories/VerifyProofs4.v
theories/VerifyProofs5.v
theories/VerifyProofs6.v
theories/VerifyProofs7.v
theories/VerifyProofs8.v
theories/VerifyProofs9.v
theories/VerifyProofs10.v
theories/Props_Verify.v
theories/Props_VerifyEx.v
theories/NestedModel.v
theories/NestedSpec.v
theories/NestedProofs.v
theories/Props_Nested.v
theories/NestedExample.v
theories/Props_NestedEx.v
theories/FuseModel.v
theories/FuseSpec.v
theories/FuseProofs.v
theories/FuseProofs2.v
theories/FuseProofs3.v
theories/FuseProofs4.v
theories/FuseProofs5.v
theories/FuseProofs6.v
theories/FuseProofs7.v
theories/Props_Fuse.v
theories/Props_FuseEx.v
theories/Props_Seed.v
theories/Props_SeedEx.v
theories/PastaModel.v
theories/PastaSpec.v
theories/PastaProofs.v
theories/PastaProofs2.v
theories/KeyProofs.v
theories/Props_Pasta.v
theories/DeriveModel.v
theories/DeriveSpec.v
theories/DeriveProofs.v
theories/DeriveProofs2.v
theories/DeriveProofs3.v
theories/Props_Derive.v
theories/AccSpec.v
theories/AccProofs.v
theories/AccProofs2.v
theories/AccProofs3.v
theories/Props_Acc.v
theories/Props_AccEx.v
theories/HistSpec.v
theories/Props_Hist.v
theories/Props_HistEx.v
theories/ProdModel.v
theories/ProdProofs.v
theories/Props_Prod.v
theories/Props_ProdEx.v
theories/MerkleModel.v
theories/MerkleSpec.v
theories/Props_Merkle.v
theories/Props_MerkleEx.v
theories/FixtureModel.v
theories/Props_Fixture.v
theories/MaybeModel.v
theories/Props_Maybe.v
theories/FingerModel.v
theories/FingerSpec.v
theories/FingerProofs.v
theories/Props_Finger.v
theories/Props_Curve.v
theories/MacroModel.v
theories/MacroSpec.v
theories/MacroProofs.v
theories/Props_Macro.v
theories/CountModel.v
theories/Props_Count.v
theories/SendModel.v
theories/SendSpec.v
theories/Props_Send.v
theories/PathModel.v
theories/PathSpec.v
theories/Props_Path.v
theories/MachModel.v
theories/Props_Mach.v
theories/BakedModel.v
theories/Props_Baked.v
