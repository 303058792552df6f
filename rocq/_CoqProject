-Q theories Verif
theories/Base.v
theories/Xr.v
theories/NdArray.v
theories/Expr.v
theories/Scatter.v
theories/FnModel.v
theories/Lambdify.v
theories/Kernels.v
theories/World.v
theories/Jacobian.v
theories/Machine.v
theories/Sim.v
theories/Frame.v
theories/SimHist.v
theories/StateEff.v
theories/StateHist.v
theories/StateProps.v
theories/StateProps2.v
theories/Pickle.v
theories/FnState.v
theories/PureCalc.v
theories/Elem.v
theories/Shape.v
theories/PureApi.v
theories/Api.v
theories/Properties1.v
theories/XrAlg.v
theories/Direct.v
theories/FintEl.v
theories/NumApi.v
theories/NumProps.v
theories/Scale.v
theories/Properties2.v
theories/Affine.v
theories/Spec.v
theories/Formula.v
theories/SpecScat.v
theories/ExprFacts.v
theories/ScatEl.v
theories/FnUse.v
theories/PhaseVal.v
theories/Properties3.v
theories/ExpInt.v
theories/AzInt.v
theories/FnAlg.v
theories/FnPipe.v
theories/LegFacts.v
theories/CosLobe.v
theories/SpecExp.v
theories/FnExp.v
theories/FnExp2.v
theories/FnExp3.v
theories/FnDeg.v
theories/FnInt.v
theories/FintVal.v
theories/Interact.v
theories/SpecInt.v
theories/Interact2.v
theories/Interact3.v
theories/CalcOk.v
theories/Geometry4.v
theories/Properties4.v
theories/Flip.v
theories/After.v
theories/Wit4.v
theories/Same.v
theories/Properties5.v
theories/Properties6.v
theories/Properties7.v
theories/LegSeries.v
theories/LegSeries2.v
theories/Sphere.v
theories/Properties8.v
theories/Validity.v
theories/ParamInv.v
theories/ParamRead.v
theories/Properties9.v
theories/FnKeys.v
theories/CallEq.v
theories/SameSetup.v
theories/Memo.v
theories/Properties10.v
theories/Properties11.v
theories/SpecJac.v
theories/Deriv.v
theories/JacEl.v
theories/JacSym.v
theories/Properties12.v
theories/Properties13.v
theories/Properties14.v
theories/Twin.v
theories/Closed.v
theories/Others.v
theories/Interleave.v
theories/Properties15.v
theories/Ncoefs.v
theories/Properties16.v
theories/Properties17.v
theories/Stale.v
theories/Properties18.v
theories/TauZero.v
theories/Properties19.v
theories/Wit19.v
theories/Progress.v
theories/Properties20.v
theories/Wit20.v
theories/Plot.v
theories/PlotFacts.v
theories/Properties21.v
theories/Docs.v
theories/Properties22.v
theories/Backends.v
theories/Properties23.v
theories/Wit23.v
theories/Trunc.v
theories/Properties24.v
theories/SpecFig.v
theories/Quad.v
theories/Quad2.v
theories/Hem.v
theories/HemEl.v
theories/Properties25.v
theories/Wit26.v
theories/Properties26.v
theories/Polar.v
theories/PolarEl.v
theories/PolarRun.v
theories/Properties27.v
theories/Properties28.v
theories/PlotInit.v
theories/Properties29.v
theories/Sessions.v
theories/Ref3.v
theories/Properties30.v
theories/Plot3D.v
theories/Logging.v
theories/Properties31.v
theories/Properties32.v
theories/SurfVol.v
theories/Properties33.v
theories/NonVacuous.v
theories/Energy.v
theories/Properties34.v
theories/Float.v
theories/Properties35.v
theories/Properties36.v
theories/Local.v
theories/Threads.v
theories/Properties37.v
theories/Stable.v
theories/Properties38.v
theories/Lazy.v
theories/Properties39.v
theories/Config.v
theories/Properties40.v
theories/Crash.v
theories/Properties41.v
theories/Properties42.v
theories/Properties43.v
theories/Properties44.v
theories/Properties45.v
theories/Properties46.v
