-Q theories Verif
theories/Base.v
theories/OperatorsModel.v
theories/OperatorsSpec.v
theories/OperatorsProofs.v
theories/OperatorsProps.v
theories/LookupModel.v
theories/LookupSpec.v
theories/LookupProofs.v
theories/LookupProps.v
theories/SectorModel.v
theories/SectorSpec.v
theories/SectorProofs.v
theories/SectorProps.v
theories/FockSpec.v
theories/LocalModel.v
theories/LocalSpec.v
theories/FockProofs.v
theories/LocalProofs.v
theories/LocalProps.v
theories/HoppingModel.v
theories/CsrSpec.v
theories/CsrProofs.v
theories/HoppingProofs.v
theories/HoppingProps.v
theories/NonLocalModel.v
theories/NonLocalSpec.v
theories/NonLocalFock.v
theories/NonLocalProofs.v
theories/NonLocalSz.v
theories/NonLocalSzProofs.v
theories/NonLocalProps.v
theories/MatvecModel.v
theories/MatvecSpec.v
theories/MatvecProofs.v
theories/MatvecParProofs.v
theories/MpiModel.v
theories/MpiProofs.v
theories/MbModel.v
theories/MbSpec.v
theories/MbProofs.v
theories/MatvecProps.v
theories/EspaceModel.v
theories/EspaceSpec.v
theories/EspaceProofs.v
theories/EspaceMoreProofs.v
theories/EspaceEigProofs.v
theories/RBase.v
theories/EspaceRealModel.v
theories/EspaceRealProofs.v
theories/EspaceProps.v
theories/RLin.v
theories/CBase.v
theories/LanczosModel.v
theories/LanczosSpec.v
theories/LanczosProofs.v
theories/LanczosOrthoProofs.v
theories/LanczosMoreProofs.v
theories/LanczosSolveProofs.v
theories/CfModel.v
theories/CfSpec.v
theories/CfProofs.v
theories/CfMoreProofs.v
theories/LanczosRealProofs.v
theories/LanczosProps.v
theories/ProjModel.v
theories/ProjSpec.v
theories/ProjProofs.v
theories/ProjMoreProofs.v
theories/ProjFinalProofs.v
theories/GfModel.v
theories/GfSpec.v
theories/GfProofs.v
theories/GfSumProofs.v
theories/GfMoreProofs.v
theories/GfProps.v
theories/ObsModel.v
theories/ObsSpec.v
theories/ObsProofs.v
theories/ObsMoreProofs.v
theories/ObsProps.v
theories/RateModel.v
theories/RateSpec.v
theories/RateProofs.v
theories/RateDictProofs.v
theories/RateStatProofs.v
theories/RateActiveProofs.v
theories/RateProps.v
theories/FitModel.v
theories/FitSpec.v
theories/FitProofs.v
theories/FitMoreProofs.v
theories/FitProps.v
theories/DmftModel.v
theories/DmftSpec.v
theories/DmftProofs.v
theories/DmftProps.v
theories/NrModel.v
theories/NrSpec.v
theories/NrProofs.v
theories/NrProps.v
theories/GflModel.v
theories/GflSpec.v
theories/GflProofs.v
theories/GflLoopProofs.v
theories/GflMainProofs.v
theories/GflPairProofs.v
theories/GflInstProofs.v
theories/GflExProofs.v
theories/GflProps.v
theories/IntModel.v
theories/IntSpec.v
theories/IntProofs.v
theories/IntLimProofs.v
theories/IntProps.v
theories/ShowModel.v
theories/ShowSpec.v
theories/ShowProofs.v
theories/ShowProps.v
theories/TransModel.v
theories/TransSpec.v
theories/TransProofs.v
theories/TransBuildProofs.v
theories/TransFinalProofs.v
theories/TransProps.v
theories/CotModel.v
theories/CotSpec.v
theories/CotProofs.v
theories/CotBuildProofs.v
theories/CotFinalProofs.v
theories/CotProps.v
theories/GmModel.v
theories/GmSpec.v
theories/GmFockProofs.v
theories/GmProofs.v
theories/GmFreeProofs.v
theories/GmEomProofs.v
theories/GmEspaceProofs.v
theories/GmExProofs.v
theories/GmProps.v
theories/DedModel.v
theories/DedSpec.v
theories/DedFitProofs.v
theories/DedRootProofs.v
theories/DedProofs.v
theories/DedTrialProofs.v
theories/DedMoreProofs.v
theories/DedMoamProofs.v
theories/DedProps.v
theories/SpectralProofs.v
theories/ExactSpec.v
theories/EighProofs.v
theories/ConserveProofs.v
theories/ExactProofs.v
theories/ExactMoreProofs.v
theories/FlipProofs.v
theories/FlipExactProofs.v
theories/ExactFinalProofs.v
theories/ExactProps.v
theories/FermiModel.v
theories/FermiSpec.v
theories/LambertProofs.v
theories/FermiProofs.v
theories/FermiMoreProofs.v
theories/FermiFinalProofs.v
theories/MatsumProofs.v
theories/FermiProps.v
theories/OccSpec.v
theories/OccProofs.v
theories/OccProps.v
theories/BandModel.v
theories/BandSpec.v
theories/BandLoopProofs.v
theories/BandProofs.v
theories/BandRunProofs.v
theories/BandGsProofs.v
theories/BandRealProofs.v
theories/BandProps.v
theories/TnlModel.v
theories/TnlSpec.v
theories/TnlProofs.v
theories/ThermoProofs.v
theories/TnlMatProofs.v
theories/TransCurrentProofs.v
theories/TnlProps.v
theories/CnlSpec.v
theories/CnlProofs.v
theories/CnlRateProofs.v
theories/CnlScreenProofs.v
theories/CnlIntProofs.v
theories/CnlProps.v
theories/NanoModel.v
theories/NanoSpec.v
theories/NanoMatProofs.v
theories/NanoProofs.v
theories/NanoMoreProofs.v
theories/NanoRankProofs.v
theories/NanoStepProofs.v
theories/NanoInvProofs.v
theories/NanoProps.v
theories/AdjModel.v
theories/AdjSpec.v
theories/AdjProofs.v
theories/AdjOccProofs.v
theories/AdjProps.v
theories/TriModel.v
theories/TriSpec.v
theories/TriProofs.v
theories/TriRealProofs.v
theories/TriSolveProofs.v
theories/TriProps.v
theories/ArpModel.v
theories/ArpSpec.v
theories/ArpProofs.v
theories/ArpRealProofs.v
theories/ArpProps.v
theories/SmoModel.v
theories/SmoSpec.v
theories/SmoProofs.v
theories/SmoRunProofs.v
theories/SmoProps.v
theories/ExtModel.v
theories/ExtSpec.v
theories/ExtProofs.v
theories/ExtBuildProofs.v
theories/ExtMatProofs.v
theories/ExtProps.v
theories/DevModel.v
theories/DevSpec.v
theories/DevProofs.v
theories/DevRunProofs.v
theories/DevProps.v
theories/ParModel.v
theories/ParSpec.v
theories/ParProofs.v
theories/ParProps.v
theories/SymSpec.v
theories/SymProofs.v
theories/SymFixProofs.v
theories/SymProps.v
theories/RelSpec.v
theories/RelLinProofs.v
theories/RelFockProofs.v
theories/RelHamProofs.v
theories/RelProofs.v
theories/RelGfProofs.v
theories/RelFinalProofs.v
theories/RelCorProofs.v
theories/RelProps.v
theories/ImpSpec.v
theories/ImpProofs.v
theories/ImpMirrorProofs.v
theories/ImpExProofs.v
theories/ImpProps.v
theories/AgrModel.v
theories/AgrSpec.v
theories/AgrProofs.v
theories/AgrInstProofs.v
theories/AgrMainProofs.v
theories/AgrExProofs.v
theories/AgrProps.v
theories/VisSpec.v
theories/VisProofs.v
theories/VisMainProofs.v
theories/VisExProofs.v
theories/VisProps.v
theories/SiamSpec.v
theories/SiamLinProofs.v
theories/SiamFockProofs.v
theories/SiamStateProofs.v
theories/SiamFormProofs.v
theories/SiamMainProofs.v
theories/SiamModel.v
theories/SiamLinkProofs.v
theories/SiamCutProofs.v
theories/SiamInstProofs.v
theories/SiamImpProofs.v
theories/SiamExProofs.v
theories/SiamProps.v
theories/ScrSpec.v
theories/ScrProofs.v
theories/ScrRelProofs.v
theories/ScrMainProofs.v
theories/ScrExProofs.v
theories/ScrProps.v
theories/PhsSpec.v
theories/PhsProofs.v
theories/PhsLoopProofs.v
theories/PhsExProofs.v
theories/PhsProps.v
theories/MagModel.v
theories/MagSpec.v
theories/MagProofs.v
theories/MagLoopProofs.v
theories/MagStartProofs.v
theories/MagExProofs.v
theories/MagBadProofs.v
theories/MagProps.v
theories/AfmSpec.v
theories/AfmProofs.v
theories/AfmLoopProofs.v
theories/AfmProps.v
theories/AtomSpec.v
theories/AtomProofs.v
theories/AtomInstProofs.v
theories/AtomOccProofs.v
theories/AtomImpProofs.v
theories/AtomMainProofs.v
theories/AtomProps.v
theories/MulProofs.v
theories/MulNormProofs.v
theories/MulCountProofs.v
theories/MulMainProofs.v
theories/MulProps.v
theories/EntSpec.v
theories/EntProofs.v
theories/EntBathProofs.v
theories/EntMainProofs.v
theories/EntProps.v
theories/RespProofs.v
theories/RespSpec.v
theories/RespMainProofs.v
theories/RespProps.v
theories/RespGroundProofs.v
theories/RespGsProps.v
theories/RespUSpec.v
theories/RespUProofs.v
theories/RespUProps.v
theories/NnzModel.v
theories/NnzSpec.v
theories/NnzProofs.v
theories/NnzProps.v
theories/LorModel.v
theories/LorProofs.v
theories/LorProps.v
theories/LmModel.v
theories/LmSpec.v
theories/LmProofs.v
theories/LmProps.v
theories/BufModel.v
theories/BufSpec.v
theories/BufProofs.v
theories/BufProps.v
