-Q theories Verif
theories/Base.v
theories/StochModel.v
theories/StochModelSpec.v
theories/StochModelProofs.v
theories/StochModelProps.v
theories/LimitState.v
theories/LimitStateSpec.v
theories/LimitStateProofs.v
theories/LimitStateProps.v
theories/Transf.v
theories/TransfSpec.v
theories/TransfProofs.v
theories/TransfProps.v
theories/Chol.v
theories/CholProofs.v
theories/CholProps.v
theories/Gauss.v
theories/GaussProofs.v
theories/GaussProps.v
theories/GramSchmidt.v
theories/GramSchmidtProofs.v
theories/GramSchmidtProps.v
theories/Ext.v
theories/Sorm.v
theories/SormProofs.v
theories/SormHessProofs.v
theories/SormProps.v
theories/Form.v
theories/FormProofs.v
theories/FormAffineProofs.v
theories/FormNormalProofs.v
theories/FormProps.v
theories/FormExactProofs.v
theories/FormExactProps.v
theories/Mc.v
theories/McSpec.v
theories/McProofs.v
theories/McRunProofs.v
theories/McProps.v
theories/Ss.v
theories/SsProofs.v
theories/SsProps.v
theories/Ls.v
theories/LsProofs.v
theories/LsProps.v
theories/Quad.v
theories/QuadSpec.v
theories/QuadProofs.v
theories/QuadProps.v
theories/Nataf.v
theories/NatafSpec.v
theories/NatafProofs.v
theories/NatafProps.v
theories/Dict.v
theories/Sens.v
theories/SensSpec.v
theories/SensNumProofs.v
theories/SensCfProofs.v
theories/SensSvdProofs.v
theories/SensProps.v
theories/Dist.v
theories/DistSpec.v
theories/DistProofs.v
theories/DistMomProofs.v
theories/DistUpdProofs.v
theories/DistCompProofs.v
theories/DistProps.v
theories/DistCompProps.v
theories/LoadComb.v
theories/LoadCombSpec.v
theories/LoadCombProofs.v
theories/LoadCombProps.v
theories/CalibMatProofs.v
theories/CalibMatProps.v
theories/CalibLoopProps.v
theories/Calib.v
theories/CalibSpec.v
theories/CalibProofs.v
theories/CalibProps.v
theories/Generic.v
theories/GenericSpec.v
theories/GenericProofs.v
theories/GenericProps.v
theories/Valid.v
theories/ValidProps.v
theories/MomSpec.v
theories/MomProofs.v
theories/MomFamProofs.v
theories/GammaProofs.v
theories/MomGamProofs.v
theories/MomZiProofs.v
theories/MomProps.v
theories/CovProps.v
theories/Copy.v
theories/CopySpec.v
theories/CopyProofs.v
theories/CopyClsProofs.v
theories/CopyProps.v
theories/ScaleSpec.v
theories/ScaleProofs.v
theories/ScaleFormProofs.v
theories/ScaleSimProofs.v
theories/ScaleProps.v
theories/DmomProps.v
theories/RotProofs.v
theories/RotSpec.v
theories/RotProps.v
theories/PermProofs.v
theories/Pipe.v
theories/PipeSpec.v
theories/PipeProofs.v
theories/PipeProps.v
theories/McRelProofs.v
theories/McRelProps.v
theories/UnitsSpec.v
theories/UnitsProofs.v
theories/UnitsProps.v
theories/SensRun.v
theories/SensRunSpec.v
theories/SensRunProofs.v
theories/SensRunProps.v
theories/NumRun.v
theories/NumRunSpec.v
theories/NumRunProofs.v
theories/NumRunProps.v
theories/SormRun.v
theories/SormRunSpec.v
theories/SormRunProofs.v
theories/SormRunProps.v
theories/SormQuadSpec.v
theories/SormQuadProofs.v
theories/SormQuadProps.v
theories/LsRun.v
theories/LsRunSpec.v
theories/LsRunProofs.v
theories/LsRunProps.v
theories/McRun.v
theories/McRunOnSpec.v
theories/McRunOnProofs.v
theories/McRunOnProps.v
theories/SsRun.v
theories/SsRunSpec.v
theories/SsRunProofs.v
theories/SsRunProps.v
theories/SormFormSpec.v
theories/SormFormProofs.v
theories/SormFormProps.v
theories/LogLin.v
theories/LogLinSpec.v
theories/LogLinProofs.v
theories/LogLinProps.v
theories/LcRun.v
theories/LcRunSpec.v
theories/LcRunProofs.v
theories/LcRunProps.v
theories/SensApi.v
theories/SensApiSpec.v
theories/SensApiProofs.v
theories/SensApiProps.v
theories/DaRun.v
theories/DaRunSpec.v
theories/DaRunProofs.v
theories/DaRunProps.v
theories/CalRun.v
theories/CalRunSpec.v
theories/CalRunProofs.v
theories/CalRunProps.v
theories/CalCodeProps.v
theories/SsKernelProofs.v
theories/SsKernelProps.v
theories/DistHeap.v
theories/DistHeapSpec.v
theories/DistHeapProofs.v
theories/DistHeapProps.v
theories/McBiasSpec.v
theories/McBiasProofs.v
theories/McBiasProps.v
theories/McBiasLinProofs.v
theories/McBiasLinProps.v
theories/FormBoundSpec.v
theories/FormBoundProofs.v
theories/FormBoundProps.v
theories/LsForeignProofs.v
theories/LsForeignProps.v
theories/Session.v
theories/SessionSpec.v
theories/SessionProofs.v
theories/SessionProps.v
theories/TailProofs.v
theories/SormBoundSpec.v
theories/SormBoundProofs.v
theories/SormBoundProps.v
theories/SormBoundRunProps.v
theories/FormAttr.v
theories/FormAttrSpec.v
theories/FormAttrProofs.v
theories/FormAttrProps.v
theories/LsBiasSpec.v
theories/LsBiasProofs.v
theories/LsBiasProps.v
theories/McFloat.v
theories/McFloatSpec.v
theories/McFloatProofs.v
theories/McFloatProps.v
theories/QuadOrderProofs.v
theories/QuadOrderProps.v
theories/CalibDf.v
theories/CalibDfProps.v
theories/CorrHeap.v
theories/CorrHeapProps.v
theories/GaussRuleProofs.v
theories/GaussRuleProps.v
theories/FfdErrProps.v
theories/FormNewtonProofs.v
theories/FormNewtonProps.v
theories/FormGamma.v
theories/FormGammaProps.v
theories/CalibRun.v
theories/CalibRunProps.v
theories/RidgeProofs.v
theories/RidgeProps.v
theories/FitCmpProofs.v
theories/FitCmpProps.v
theories/FitCmpExProps.v
theories/LapackProofs.v
theories/LapackProps.v
theories/SormInvSpec.v
theories/SormInvProofs.v
theories/SormInvProps.v
theories/SormInvExProps.v
theories/HessSpec.v
theories/HessProofs.v
theories/HessProps.v
theories/HessExProps.v
theories/HessCxProps.v
theories/SormAttr.v
theories/SormAttrSpec.v
theories/SormAttrProofs.v
theories/SormAttrProps.v
theories/FixStepProofs.v
theories/FixStepProps.v
theories/BinomSpec.v
theories/BinomProofs.v
theories/BinomProps.v
