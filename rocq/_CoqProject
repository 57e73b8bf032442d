-Q theories Verif
theories/Outcome.v
theories/TimestampModel.v
theories/DoubleModel.v
theories/Spec_Time.v
theories/TimestampProofs.v
theories/DoubleProofs.v
theories/Props_Time.v
theories/BufModel.v
theories/Spec_Buf.v
theories/BufProofs.v
theories/HorizonModel.v
theories/HorizonProofs.v
theories/Props_Buffers.v
theories/EpochProofs.v
theories/Props_Epoch.v
theories/Chi2Model.v
theories/Props_Chi2.v
theories/DMat.v
theories/KFModel.v
theories/Spec_Mat.v
theories/KFProofs.v
theories/Props_KF.v
theories/Props_KF2.v
theories/MeasModel.v
theories/FilterModel.v
theories/FilterProofs.v
theories/Props_Filter.v
theories/HandlerModel.v
theories/Spec_Handler.v
theories/HandlerProofs.v
theories/AgeProofs.v
theories/ClockProofs.v
theories/ReplayProofs.v
theories/ArrivalProofs.v
theories/Props_Handler.v
theories/Props_Handler2.v
theories/UtilModel.v
theories/Props_Util.v
theories/EigenModel.v
theories/EigenProofs.v
theories/Props_Eigen.v
theories/ConcModel.v
theories/Props_Conc.v
theories/BeliefModel.v
theories/BeliefProofs.v
theories/Props_Belief.v
theories/IsoModel.v
theories/IsoProofs.v
theories/Props_Iso.v
theories/IsoTrace.v
theories/Props_Iso2.v
theories/Spec_Joint.v
theories/JointProofs.v
theories/Props_Joint.v
theories/Props_Joint2.v
theories/CorrModel.v
theories/Spec_Corr.v
theories/CorrProofs.v
theories/CorrTime.v
theories/CorrSim.v
theories/CorrTrace.v
theories/Props_Corr.v
theories/Props_Corr2.v
theories/SchmidtModel.v
theories/Spec_Schmidt.v
theories/SchmidtProofs.v
theories/Props_Schmidt.v
theories/WindowProofs.v
theories/AgreeProofs.v
theories/EstModel.v
theories/Spec_Est.v
theories/EstProofs.v
theories/Props_Est.v
theories/DPModel.v
theories/Spec_DP.v
theories/DPProofs.v
theories/Props_DP.v
theories/Props_DP2.v
theories/Props_Maint.v
theories/CatModel.v
theories/Props_Cat.v
theories/ExModel.v
theories/Spec_Ex.v
theories/ExProofs.v
theories/ExRun.v
theories/Props_Ex.v
theories/HObsModel.v
theories/HObsProofs.v
theories/Props_HObs.v
theories/AgentModel.v
theories/AgentProofs.v
theories/Props_Agent.v
theories/Props_DCI.v
theories/CollabModel.v
theories/CollabProofs.v
theories/Props_Collab2.v
theories/Props_Collab.v
theories/Spec_Chi2.v
theories/Chi2Proofs.v
theories/Props_Chi2b.v
theories/StdModel.v
theories/Spec_Std.v
theories/StdProofs.v
theories/Props_Std.v
theories/RepairModel.v
theories/Spec_Repair.v
theories/RepairProofs.v
theories/Props_Repair.v
theories/ConvModel.v
theories/ConvProofs.v
theories/Props_Conv.v
theories/MultiModel.v
theories/Spec_Multi.v
theories/MultiProofs.v
theories/Props_Multi.v
theories/TextModel.v
theories/Spec_Text.v
theories/TextProofs.v
theories/Props_Text.v
theories/FsProofs.v
theories/Props_Fs.v
theories/CsvProofs.v
theories/Props_Csv.v
theories/NormalModel.v
theories/Spec_Normal.v
theories/Props_Normal.v
theories/StampedModel.v
theories/Props_Stamped.v
theories/RandModel.v
theories/Props_Rand.v
theories/RateModel.v
theories/Props_Rate.v
theories/Props_Progress.v
theories/Spec_Valid.v
theories/KeepProofs.v
theories/Spec_Defined.v
theories/Props_Defined.v
theories/Props_Valid.v
theories/DPHModel.v
theories/Props_DPH.v
theories/IterModel.v
theories/Props_Iter.v
theories/LinModel.v
theories/LinProofs.v
theories/Props_LinClock.v
theories/Props_Lin.v
theories/RelaxModel.v
theories/RelaxProofs.v
theories/Props_Relax.v
theories/RelaxReplay.v
theories/Props_RelaxReplay.v
theories/Props_EpochReplay.v
theories/AccessModel.v
theories/Props_Access.v
theories/AccessMatModel.v
theories/Props_Access2.v
theories/TrajModel.v
theories/Props_Traj.v
theories/PrintModel.v
theories/Props_Print.v
theories/SimModel.v
theories/Props_Sim.v
theories/FirstProofs.v
theories/SimHandler.v
theories/Props_First.v
theories/Props_Factors.v
