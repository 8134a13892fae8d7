-Q theories Verif

theories/NumTheory.v
theories/Prime25519.v
theories/Outcome.v
theories/Fp.v
theories/GroupMod.v
theories/FSum.v
theories/ConstraintsModel.v
theories/ConstraintsSpec.v
theories/ConstraintsProofs.v
theories/ConstraintsMerge.v
theories/ConstraintsOther.v
theories/PropConstraints.v
theories/PropPrime.v
theories/PedersenModel.v
theories/PedersenSpec.v
theories/PedersenProofs.v
theories/PropPedersen.v
theories/BulletproofModel.v
theories/BulletproofProofs.v
theories/BulletproofQuad.v
theories/BulletproofForgery.v
theories/FreeMod.v
theories/BulletproofSpec.v
theories/BulletproofSound.v
theories/BulletproofQSound.v
theories/BulletproofApi.v
theories/BulletproofExamples.v
theories/PropBulletproof.v
theories/Poly.v
theories/LinAlg.v
theories/ShamirModel.v
theories/ShamirSpec.v
theories/ShamirProofs.v
theories/ShamirSecret.v
theories/PropShamir.v
theories/TwoSquares.v
theories/FourSquaresModel.v
theories/FourSquaresSpec.v
theories/FourSquaresProofs.v
theories/FourSquaresMore.v
theories/PropFourSquares.v
theories/Bytes.v
theories/Ring.v
theories/Scalar25519Model.v
theories/Scalar25519Spec.v
theories/Scalar25519Proofs.v
theories/PropScalar25519.v
theories/AlgebraModel.v
theories/AlgebraSpec.v
theories/AlgebraProofs.v
theories/AlgebraMore.v
theories/PropAlgebra.v
theories/TernaryModel.v
theories/TernarySpec.v
theories/TernaryProofs.v
theories/PropTernary.v
theories/RegevModel.v
theories/RegevSpec.v
theories/RegevProofs.v
theories/RegevDecrypt.v
theories/RegevMore.v
theories/PropRegev.v
theories/KeccakModel.v
theories/KeccakSpec.v
theories/KeccakProofs.v
theories/PropKeccak.v
theories/MerlinModel.v
theories/MerlinSpec.v
theories/MerlinProofs.v
theories/MerlinInj.v
theories/MerlinMore.v
theories/PropMerlin.v
theories/RegevPfModel.v
theories/RegevPfSpec.v
theories/RegevPfBase.v
theories/RegevPfLin.v
theories/RegevPfCom.v
theories/PropRegevPf.v
theories/RegevStSpec.v
theories/RegevPfState.v
theories/RegevPfEff.v
theories/RegevPfPost.v
theories/RegevPfDec.v
theories/RegevPfEnc.v
theories/RegevPfKey.v
theories/RegevPfSat.v
theories/RegevPfSatDec.v
theories/RegevPfSatEnc.v
theories/RegevPfSatKey.v
theories/RegevPfShare.v
theories/RegevPfSml.v
theories/RegevPfToy.v
theories/PropRegevSt.v
theories/RegevAggModel.v
theories/RegevAggMaps.v
theories/RegevAggSpec.v
theories/RegevAggProofs.v
theories/RegevAggTotal.v
theories/RegevAggOpen.v
theories/RegevAggAccept.v
theories/RegevAggForge.v
theories/RegevRunModel.v
theories/RegevRunSpec.v
theories/RegevRunProofs.v
theories/RegevRunToy.v
theories/PropRegevAgg.v
theories/RegevPfFS.v
theories/RegevPfFSMore.v
theories/PropRegevFS.v
theories/RegevSoundSpec.v
theories/RegevAggSound.v
theories/RegevAggFirst.v
theories/PropRegevSound.v
theories/StreamModel.v
theories/StreamSpec.v
theories/StreamProofs.v
theories/PropStream.v
theories/CountSpec.v
theories/CountProofs.v
theories/CountTernary.v
theories/CountTrans.v
theories/CountPow.v
theories/StepSpec.v
theories/StepSound.v
theories/NormInt.v
theories/StepMain.v
theories/StepToy.v
theories/PropCount.v
theories/PropStep.v
theories/ProgressSpec.v
theories/ProgressBase.v
theories/ProgressTac.v
theories/ProgressDec.v
theories/ProgressEnc.v
theories/ProgressSml.v
theories/ProgressAll.v
theories/PropProgress.v
theories/WrongSpec.v
theories/WrongProofs.v
theories/PropWrong.v
theories/ParamsModel.v
theories/ParamsSpec.v
theories/ParamsProofs.v
theories/ParamsBounds.v
theories/PropParams.v
theories/MainModel.v
theories/MainSpec.v
theories/MainProofs.v
theories/MainToy.v
theories/PropMain.v
theories/TransSpec.v
theories/TransProofs.v
theories/RegevAggKey.v
theories/PropTrans.v
theories/WholeSpec.v
theories/WholeProofs.v
theories/PropWhole.v
theories/LinkSpec.v
theories/RegevAggLink.v
theories/PropLink.v
theories/KeyModel.v
theories/KeySpec.v
theories/KeyProofs.v
theories/PropKey.v
theories/CheatSpec.v
theories/RegevAggCheat.v
theories/PropCheat.v
theories/ZkSpec.v
theories/ZkProofs.v
theories/PropZk.v
theories/HideSpec.v
theories/HideRuns.v
theories/HideSteps.v
theories/HideExist.v
theories/HideAgg.v
theories/HideRun.v
theories/HideMore.v
theories/HideToy.v
theories/HideToy2.v
theories/PropHide.v
theories/MaskSpec.v
theories/MaskProofs.v
theories/PropMask.v
theories/StrobeSpec.v
theories/StrobeLink.v
theories/StrobeProofs.v
theories/PropStrobe.v
theories/FreeSpec.v
theories/FreeProofs.v
theories/PropFree.v
theories/PermProofs.v
theories/ForgetSpec.v
theories/ForgetProofs.v
theories/PropForget.v
theories/ReshareSpec.v
theories/ReshareProofs.v
theories/PropReshare.v
theories/SpongeModel.v
theories/FsSpec.v
theories/FsProofs.v
theories/FsMore.v
theories/PropFs.v
theories/PropFsMain.v
theories/SimProofs.v
theories/HashSpec.v
theories/HashProofs.v
theories/HashTrace.v
theories/HashMore.v
theories/PropHash.v
theories/RngSpec.v
theories/RngProofs.v
theories/PropRng.v
theories/AliasModel.v
theories/AliasProofs.v
theories/PropAlias.v
theories/DistSpec.v
theories/DistProofs.v
theories/PropDist.v
theories/ArgModel.v
theories/ArgSpec.v
theories/ArgProofs.v
theories/PropArg.v
theories/InitModel.v
theories/InitSpec.v
theories/PropInit.v
theories/ZeroOneModel.v
theories/ZeroOneSpec.v
theories/ZeroOneProofs.v
theories/PropZeroOne.v
