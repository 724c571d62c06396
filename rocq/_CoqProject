-Q theories Verif
theories/PatModel.v
theories/PatSpec.v
theories/PatProofs.v
theories/PatProofs2.v
theories/PatProofs3.v
theories/PatProofs4.v
theories/PatExamples.v
theories/PatProperties.v
theories/MatBase.v
theories/LibModel.v
theories/CovModel.v
theories/CovSpec.v
theories/CovProofs.v
theories/SqrtModel.v
theories/SqrtSpec.v
theories/SqrtProofs.v
theories/ViewModel.v
theories/ViewSpec.v
theories/ViewProofs.v
theories/CovProofs2.v
theories/CovProperties.v
theories/RingTac.v
theories/GaussModel.v
theories/KalmanModel.v
theories/KalmanSpec.v
theories/KalmanProofs.v
theories/KalmanProofs2.v
theories/KalmanProofs3.v
theories/KalmanProperties.v
theories/SigmaModel.v
theories/SigmaSpec.v
theories/SigmaProofs.v
theories/SigmaProofs2.v
theories/SigmaProofs3.v
theories/SigmaProperties.v
theories/SimplexModel.v
theories/SimplexProperties.v
theories/StlModel.v
theories/StlSpec.v
theories/StlProofs.v
theories/StlProofs2.v
theories/StlProperties.v
theories/StlStatic.v
theories/StlStaticSpec.v
theories/StlStaticProofs.v
theories/StlStaticProperties.v
theories/CollModel.v
theories/CollSpec.v
theories/CollProofs.v
theories/CollProperties.v
theories/PatCmpModel.v
theories/PatCmpSpec.v
theories/PatCmpProofs.v
theories/PatCmpProperties.v
theories/PatStaticModel.v
theories/PatStaticSpec.v
theories/PatStaticProofs.v
theories/PatStaticProperties.v
theories/PatUseModel.v
theories/PatUseSpec.v
theories/PatUseProofs.v
theories/PatUseProofs2.v
theories/PatUseProperties.v
theories/RealField.v
theories/MonteModel.v
theories/MonteSpec.v
theories/MonteProofs.v
theories/MonteAngleModel.v
theories/MonteAngleProofs.v
theories/MonteProperties.v
theories/LinzModel.v
theories/LinzSpec.v
theories/LinzProofs.v
theories/LinzProb.v
theories/LinzProofs2.v
theories/LinzProofs3.v
theories/LinzProperties.v
theories/LogLikModel.v
theories/LogLikSpec.v
theories/LogLikProofs.v
theories/LogLikProperties.v
theories/MathModel.v
theories/MathSpec.v
theories/MathProofs.v
theories/MathProofs2.v
theories/MathProofs3.v
theories/MathProofs4.v
theories/MathProofs5.v
theories/MathProperties.v
theories/CMathModel.v
theories/CMathSpec.v
theories/CMathProofs.v
theories/CMathProperties.v
theories/FloatModel.v
theories/FloatSpec.v
theories/FloatProofs1.v
theories/FloatProofs2.v
theories/FloatProofs3.v
theories/FloatProofs4.v
theories/FloatProofs5.v
theories/FloatProofs6.v
theories/FloatProofs7.v
theories/FloatProofs8.v
theories/FloatProperties.v
theories/ShortModel.v
theories/ShortSpec.v
theories/ShortProofs1.v
theories/ShortProofs2.v
theories/ShortProofs3.v
theories/ShortProofs4.v
theories/ShortProofs5.v
theories/ShortProofs6.v
theories/ShortProofs7.v
theories/ShortProperties.v
theories/LdltModel.v
theories/LdltSpec.v
theories/LdltProofs.v
theories/LdltProofs2.v
theories/LdltProperties.v
theories/TileModel.v
theories/TileSpec.v
theories/TileProofs.v
theories/TileProofs2.v
theories/TileProofs3.v
theories/TileProofs4.v
theories/TileProofs5.v
theories/TileProperties.v
theories/NaryModel.v
theories/NarySpec.v
theories/NaryProofs.v
theories/NaryProofs2.v
theories/NaryProofs3.v
theories/NaryProperties.v
theories/RankModel.v
theories/RankSpec.v
theories/RankProofs.v
theories/RankProofs2.v
theories/RankProofs3.v
theories/RankProofs4.v
theories/RankProperties.v
theories/XprEigen.v
theories/XprModel.v
theories/XprSpec.v
theories/XprScalars.v
theories/XprProofs.v
theories/XprProofs2.v
theories/XprProofs3.v
theories/XprProofs4.v
theories/XprProofs5.v
theories/XprSizes.v
theories/XprProperties.v
theories/StatModel.v
theories/StatSpec.v
theories/StatProofs.v
theories/StatProperties.v
theories/MeanModel.v
theories/MeanSpec.v
theories/MeanProofs.v
theories/MeanProofs2.v
theories/MeanProperties.v
theories/FserModel.v
theories/FserSpec.v
theories/FserProofs1.v
theories/FserProofs2.v
theories/FserProofs3.v
theories/FserProofs4.v
theories/FserProofs5.v
theories/FserProofs6.v
theories/FserProofs7.v
theories/FserProofs8.v
theories/FserProofs9.v
theories/FserProofs10.v
theories/FserProperties.v
theories/View4Model.v
theories/View4Spec.v
theories/View4Proofs.v
theories/View4Properties.v
theories/AdaptModel.v
theories/AdaptSpec.v
theories/AdaptProofs.v
theories/AdaptProofs2.v
theories/AdaptProperties.v
theories/WriteModel.v
theories/WriteSpec.v
theories/WriteProofs.v
theories/WriteProofs2.v
theories/WriteProperties.v
theories/TensModel.v
theories/TensSpec.v
theories/TensProofs.v
theories/TensClaimProofs.v
theories/TensClaimProofs2.v
theories/TensClaimProofs3.v
theories/TensProperties.v
theories/FlogModel.v
theories/FlogSpec.v
theories/FlogProofs1.v
theories/FlogProofs2.v
theories/FlogProofs3.v
theories/FlogProofs4.v
theories/FlogProofs5.v
theories/FlogProperties.v
theories/FhypModel.v
theories/FhypSpec.v
theories/FhypProofs1.v
theories/FhypProofs2.v
theories/FhypProofs3.v
theories/FhypProofs4.v
theories/FhypProperties.v
theories/FpowModel.v
theories/FpowSpec.v
theories/FpowProofs.v
theories/FpowProperties.v
theories/NearModel.v
theories/NearSpec.v
theories/NearProofs.v
theories/NearProofs2.v
theories/NearProofs3.v
theories/NearProperties.v
theories/Flog1pModel.v
theories/Flog1pSpec.v
theories/Flog1pProofs.v
theories/Flog1pProofs2.v
theories/Flog1pProperties.v
