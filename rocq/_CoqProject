-Q theories Verif
theories/Num.v
theories/XRFacts.v
theories/ExprModel.v
theories/ExprSpec.v
theories/ExprEval.v
theories/ExprEval2.v
theories/ExprSimplify.v
theories/ExprSimplify2.v
theories/ExprSubst.v
theories/ExprWitness.v
theories/PropsExpr.v
theories/ShowModel.v
theories/ShowSpec.v
theories/ShowProofs.v
theories/PyProofs.v
theories/ShowWitness.v
theories/PropsShow.v
theories/DensitySpec.v
theories/BuilderModel.v
theories/BuilderProofs.v
theories/BuilderWitness.v
theories/PropsBuild.v
theories/CacheModel.v
theories/CacheSpec.v
theories/CacheProofs.v
theories/CacheProofs2.v
theories/CacheWitness.v
theories/PropsCache.v
theories/CoreModel.v
theories/CoreSpec.v
theories/CoreProofs.v
theories/FloatFacts.v
theories/ConvModel.v
theories/ConvProofs.v
theories/PropsCore.v
theories/CombModel.v
theories/ExpFamModel.v
theories/DistModel.v
theories/DistSpec.v
theories/DistFacts.v
theories/DistProofs.v
theories/DistProofs2.v
theories/DistProofs3.v
theories/DistProofs4.v
theories/DistProofs5.v
theories/ExpFamSpec.v
theories/ExpFamProofs.v
theories/PropsDist.v
theories/PropsExpFam.v
theories/CombSpec.v
theories/CombProofs.v
theories/CombProofs2.v
theories/PropsComb.v
theories/DiscProofs.v
theories/DiscProofs2.v
theories/Wallis.v
theories/Stirling.v
theories/FactProofs.v
theories/PropsMoments.v
theories/IntSpec.v
theories/Improper.v
theories/GammaFun.v
theories/ContProofs.v
theories/ContProofs2.v
theories/PropsCont.v
theories/JitModel.v
theories/JitSpec.v
theories/JitProofs.v
theories/JitProofs2.v
theories/PropsJit.v
theories/EggModel.v
theories/EggSpec.v
theories/EggProofs.v
theories/EggProofs2.v
theories/EggText.v
theories/LitFacts.v
theories/EggNum.v
theories/PropsEgg.v
theories/Approx.v
theories/FloatErr.v
theories/JitReal.v
theories/JitBits.v
theories/JitAcc.v
theories/JitAcc2.v
theories/AccSpec.v
theories/AccProofs.v
theories/PropsAcc.v
theories/TaglessModel.v
theories/TaglessSpec.v
theories/TaglessProofs.v
theories/TaglessProofs2.v
theories/StirlingReal.v
theories/TaglessGamma.v
theories/PropsTagless.v
theories/RoundSpec.v
theories/RoundProofs.v
theories/RelErr.v
theories/DistFloat.v
theories/SumFloat.v
theories/SingleModel.v
theories/SingleSpec.v
theories/SingleErr.v
theories/SingleFloat.v
theories/PropsRound.v
theories/CustomModel.v
theories/CustomSpec.v
theories/CustomProofs.v
theories/PropsCustom.v
theories/SimpFloatSpec.v
theories/SimpFloat.v
theories/SimpFloat2.v
theories/PropsSimpFloat.v
theories/CombFloatSpec.v
theories/CombFloat.v
theories/CombFloat2.v
theories/PropsCombFloat.v
theories/FamFloatSpec.v
theories/FamFloat.v
theories/FactFloat.v
theories/FamFloat2.v
theories/FamFloat3.v
theories/PropsFamFloat.v
theories/NatFloatSpec.v
theories/NatFloat.v
theories/PropsNatFloat.v
theories/CumSpec.v
theories/CumProofs.v
theories/PropsCum.v
theories/DualModel.v
theories/DualSpec.v
theories/DualProofs.v
theories/DualProofs2.v
theories/DualProofs3.v
theories/PropsDual.v
theories/DefaultModel.v
theories/ApiSpec.v
theories/ApiProofs.v
theories/SpecialProofs.v
theories/ConjSpec.v
theories/ConjProofs.v
theories/PropsApi.v
theories/LatexSpec.v
theories/LatexProofs.v
theories/PropsLatex.v
theories/TextModel.v
theories/ParseSpec.v
theories/ParseProofs.v
theories/PropsParse.v
theories/IidFloatSpec.v
theories/IidFloat.v
theories/IidFloat2.v
theories/IidFloat3.v
theories/PropsIidFloat.v
theories/IidFloatSpec2.v
theories/IidFloat4.v
theories/IidFloat5.v
theories/PropsIidFloat2.v
theories/ExpFamProofs4.v
theories/PropsIidMore.v
theories/TrapSpec.v
theories/JitTraps.v
theories/JitTraps2.v
theories/JitTraps3.v
theories/JitTraps4.v
theories/PropsTraps.v
theories/SingleFloat2.v
theories/SingleFloat3.v
theories/PropsSingle.v
theories/SingleFamModel.v
theories/SingleFamSpec.v
theories/SingleFam.v
theories/SingleFam2.v
theories/SingleFam3.v
theories/PropsSingleFam.v
theories/TaglessFloatSpec.v
theories/TaglessFloat.v
theories/TaglessFloat2.v
theories/PropsTaglessFloat.v
theories/MvnModel.v
theories/MvnSpec.v
theories/MvnProofs.v
theories/MvnDet.v
theories/PropsMvn.v
theories/ConstModel.v
theories/ConstSpec.v
theories/ConstProofs.v
theories/PropsConst.v
theories/ExtSpec.v
theories/ExtFloat.v
theories/ExtProofs.v
theories/ExtFam.v
theories/ExtSum.v
theories/ExtMix.v
theories/ExtPush.v
theories/ExtInline.v
theories/PropsExt.v
theories/ExtSingleSpec.v
theories/ExtSingle.v
theories/ExtSingleSum.v
theories/ExtSingleMix.v
theories/ExtSingleDisc.v
theories/ExtSingleGamma.v
theories/ExtSingleStudent.v
theories/PropsExtSingle.v
theories/MonoSpec.v
theories/MonoProofs.v
theories/MonoFam.v
theories/MonoSum.v
theories/PropsMono.v
theories/MonoSingle.v
theories/MonoSingleGamma.v
theories/PropsMonoSingle.v
