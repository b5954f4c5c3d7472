-Q theories Verif
theories/Base.v
theories/TextModel.v
theories/TextSpec.v
theories/TextProofs.v
theories/TextProps.v
theories/PatchesModel.v
theories/InstrModel.v
theories/InstrSpec.v
theories/InstrProofs.v
theories/InstrProps.v
theories/ReadModel.v
theories/ReadProps.v
theories/GatesModel.v
theories/GatesSpec.v
theories/GatesProofs.v
theories/GatesProps.v
theories/LoweringModel.v
theories/LoweringSpec.v
theories/LoweringProofs.v
theories/LoweringProps.v
theories/StabSpec.v
theories/StabProofs.v
theories/StabProps.v
theories/DagModel.v
theories/DagSpec.v
theories/DagProofs.v
theories/DagSim.v
theories/DagProps.v
theories/LayoutModel.v
theories/LayoutSpec.v
theories/LayoutProofs.v
theories/CompactProofs.v
theories/LayoutProps.v
theories/SliceModel.v
theories/SliceSpec.v
theories/SliceProofs.v
theories/SliceProps.v
theories/RouterModel.v
theories/BoostModel.v
theories/RouterSpec.v
theories/RouterProofs.v
theories/BoostProofs.v
theories/RouterProps.v
theories/BoostProps.v
theories/ApplyModel.v
theories/ApplySpec.v
theories/ApplyProofs.v
theories/ApplyEffect.v
theories/ApplyBell.v
theories/ApplyEnds.v
theories/BellSpec.v
theories/BellProofs.v
theories/BellRun.v
theories/BellWhole.v
theories/BellCnot.v
theories/BellInstr.v
theories/ApplyIds.v
theories/BellIds.v
theories/BellProps.v
theories/ApplyProps.v
theories/StepProps.v
theories/RunModel.v
theories/RunSpec.v
theories/RunProofs.v
theories/RunProps.v
theories/StreamProps.v
theories/MarksModel.v
theories/SchedSpec.v
theories/SchedProofs.v
theories/DagLoop.v
theories/DagLoopProps.v
theories/WaveModel.v
theories/WaveSpec.v
theories/WaveDefer.v
theories/WaveProofs.v
theories/WaveProps.v
theories/RunInv.v
theories/OutputModel.v
theories/OutputSpec.v
theories/OutputProofs.v
theories/OutputProps.v
theories/KeysProps.v
theories/EdpcModel.v
theories/EdpcSpec.v
theories/EdpcProofs.v
theories/EdpcShape.v
theories/EdpcProps.v
theories/SlicerModel.v
theories/SlicerSpec.v
theories/SlicerProps.v
theories/ProcessProps.v
theories/ExposedProps.v
theories/IdsProps.v
theories/Claims.v
theories/ClaimsRun.v
theories/MagicProps.v
theories/CircuitProps.v
theories/PandoraModel.v
theories/PandoraProps.v
theories/BellStabSpec.v
theories/BellStab.v
theories/BellChain.v
theories/BellLong.v
theories/BellStabProps.v
theories/BellCross.v
theories/BellDrop.v
theories/BellCrossProps.v
theories/BellDropProps.v
theories/SearchProps.v
theories/YProps.v
theories/GraphModel.v
theories/GraphSpec.v
theories/GraphProps.v
theories/SparseModel.v
theories/SparseProps.v
theories/EndSpec.v
theories/EndProofs.v
theories/EndTime.v
theories/EndProps.v
theories/OrderSpec.v
theories/OrderProofs.v
theories/OrderProps.v
theories/CliffordSpec.v
theories/CliffordProofs.v
theories/CliffordProps.v
theories/TraceProofs.v
theories/OrientSpec.v
theories/OrientProofs.v
theories/OrientCirc.v
theories/OrientProps.v
theories/MarksProofs.v
theories/MarksWave.v
theories/MarksProps.v
theories/AmpSpec.v
theories/AmpProofs.v
theories/AmpPass.v
theories/AmpProps.v
theories/LiveProps.v
theories/LiveDagProps.v
theories/LiveWaveProps.v
theories/LiveToolProps.v
theories/LiveRotateProps.v
theories/LiveEdpcProps.v
theories/LiveJointProps.v
theories/LiveCnotProps.v
theories/StuckProps.v
