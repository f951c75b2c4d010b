-Q theories Verif
theories/Base.v
theories/Kahn.v
theories/Channel_Model.v
theories/Channel_Spec.v
theories/Channel_Proofs.v
theories/Channel_Props.v
theories/Selector_Model.v
theories/Selector_Props.v
theories/Runtime_Model.v
theories/Runtime_Spec.v
theories/Runtime_Proofs.v
theories/Runtime_Live.v
theories/Runtime_Inv2.v
theories/Runtime_Props.v
theories/Runtime_Props2.v
theories/Runtime_Props3.v
theories/Runtime_Props4.v
theories/Runtime_Guards.v
theories/Runtime_Return.v
theories/GetSet_Model.v
theories/GetSet_Proofs.v
theories/GetSet_Props.v
theories/Async_Model.v
theories/Async_Props.v
theories/PyPorts_Model.v
theories/PyPorts_Props.v
theories/VPorts_Model.v
theories/VPorts_Props.v
theories/Connect_Model.v
theories/Connect_Props.v
theories/Connect_Props2.v
theories/Process_Model.v
theories/Process_Props.v
theories/Network_Model.v
theories/Network_Props.v
theories/Connect_Typed.v
theories/Connect_Accepts.v
theories/Groups_Model.v
theories/Groups_Dag.v
theories/Groups_Props.v
theories/Groups_Props2.v
theories/Select_Model.v
theories/Select_Props.v
theories/SyncDomain_Model.v
theories/SyncDomain_Props.v
theories/Mapper_Model.v
theories/Mapper_Props.v
theories/NpInt.v
theories/Lif_Model.v
theories/Lif_Props.v
theories/Sdn_Model.v
theories/Sdn_Props.v
theories/Codec_Model.v
theories/Codec_Props.v
theories/Bits_Model.v
theories/Bits_Props.v
theories/Io_Model.v
theories/Io_Props.v
theories/IoPolicy_Model.v
theories/IoPolicy_Props.v
theories/IoPolicy_Demo.v
theories/Conn_Model.v
theories/Conn_Spec.v
theories/Conn_Proofs.v
theories/Conn_Props.v
theories/Conv_Model.v
theories/Conv_Props.v
theories/Clp_Model.v
theories/Clp_Props.v
theories/Learning_Model.v
theories/Learning_Props.v
theories/Rule_Model.v
theories/Rule_Spec.v
theories/Rule_Proofs.v
theories/Rule_Props.v
theories/Rule_Props2.v
theories/Rf_Model.v
theories/Rf_Props.v
theories/Atrlif_Model.v
theories/Atrlif_Props.v
theories/Graded_Model.v
theories/Graded_Props.v
theories/Graded_Props2.v
theories/Graded_Sqrt.v
theories/NetAlg_Model.v
theories/NetAlg_Props.v
theories/RuleApply_Props.v
theories/Stdp_Model.v
theories/Stdp_Props.v
theories/RuleWide_Props.v
theories/Exec_Model.v
theories/Exec_Spec.v
theories/Exec_Proofs.v
theories/Exec_Props.v
theories/Exec_Layers.v
theories/Monitor_Model.v
theories/Monitor_Spec.v
theories/Monitor_Props.v
theories/RuleSpaces_Props.v
theories/FloatLearn_Model.v
theories/FloatLearn_Spec.v
theories/FloatLearn_Proofs.v
theories/FloatLearn_Props.v
theories/Factor3_Model.v
theories/Factor3_Spec.v
theories/Factor3_Proofs.v
theories/Factor3_Props.v
theories/Life_Model.v
theories/Life_Spec.v
theories/Life_Proofs.v
theories/Life_Net.v
theories/Life_Props.v
theories/AsyncSvc_Model.v
theories/AsyncSvc_Spec.v
theories/AsyncSvc_Proofs.v
theories/AsyncSvc_Inv.v
theories/AsyncSvc_Live.v
theories/AsyncSvc_Props.v
theories/ClpNet_Model.v
theories/ClpNet_Spec.v
theories/ClpNet_Proofs.v
theories/ClpNet_Step.v
theories/ClpNet_Window.v
theories/ClpNet_Props.v
theories/Kahn_Model.v
theories/Kahn_Spec.v
theories/Kahn_Proofs.v
theories/Kahn_Loihi.v
theories/Kahn_Props.v
theories/Build_Model.v
theories/Build_Spec.v
theories/Build_Proofs.v
theories/Build_Props.v
theories/S4d_Model.v
theories/S4d_Spec.v
theories/S4d_Proofs.v
theories/S4d_Props.v
theories/LSparse_Model.v
theories/LSparse_Spec.v
theories/LSparse_Props.v
theories/Watchdog_Model.v
theories/Watchdog_Spec.v
theories/Watchdog_Proofs.v
theories/Watchdog_Props.v
theories/Decor_Model.v
theories/Decor_Spec.v
theories/Decor_Proofs.v
theories/Decor_Props.v
theories/Decor_Module.v
theories/Retune_Model.v
theories/Retune_Spec.v
theories/Retune_Proofs.v
theories/Retune_Props.v
theories/Retune_Props2.v
theories/IoReset_Model.v
theories/IoReset_Spec.v
theories/IoReset_Proofs.v
theories/IoReset_Props.v
theories/IoReset_Props2.v
theories/SaveLoad_Model.v
theories/SaveLoad_Spec.v
theories/SaveLoad_Props.v
theories/SaveLoad_Props2.v
theories/RefPhase_Model.v
theories/RefPhase_Spec.v
theories/RefPhase_Inv.v
theories/RefPhase_Props.v
theories/RefPhase_Live.v
theories/RefPhase_Demo.v
theories/Wire_Model.v
theories/Wire_Spec.v
theories/Wire_Inv.v
theories/Wire_Props.v
theories/Wire_Refs.v
theories/Wire_Total.v
theories/Wire_Demo.v
theories/Cache_Model.v
theories/Cache_Spec.v
theories/Cache_Proofs.v
theories/Cache_Props.v
theories/Cache_Props2.v
theories/Cache_Demo.v
theories/Slurm_Model.v
theories/Slurm_Spec.v
theories/Slurm_Proofs.v
theories/Slurm_Props.v
theories/Slurm_Props2.v
theories/Slurm_Demo.v
theories/Startup_Model.v
theories/Startup_Spec.v
theories/Startup_Proofs.v
theories/Startup_Props.v
theories/Startup_Props2.v
theories/Startup_Demo.v
theories/Hier_Model.v
theories/Hier_Spec.v
theories/Hier_Proofs.v
theories/Hier_Props.v
theories/Hier_Props2.v
theories/Hier_Demo.v
theories/Mnist_Model.v
theories/Mnist_Spec.v
theories/Mnist_Proofs.v
theories/Mnist_Props.v
theories/Mnist_Props2.v
theories/Mnist_Demo.v
theories/ConvProc_Model.v
theories/ConvProc_Spec.v
theories/ConvProc_Props.v
theories/ConvProc_Demo.v
theories/Raster_Model.v
theories/Raster_Spec.v
theories/Raster_Props.v
theories/Raster_Demo.v
theories/RfAlg_Model.v
theories/RfAlg_Props.v
theories/ChanUpd_Model.v
theories/ChanUpd_Props.v
