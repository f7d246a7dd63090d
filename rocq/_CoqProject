-Q theories Verif
theories/Base.v
theories/Bitmap_Spec.v
theories/Helpers_RoundUp.v
theories/Bitmap_Model.v
theories/Helpers_RoundUp_Proofs.v
theories/Bitmap_Proofs.v
theories/Bitmap_Props.v
theories/Helpers_RoundUp_Props.v
theories/Heap_Spec.v
theories/Heap_Model.v
theories/Heap_Proofs.v
theories/Heap_Props.v
theories/TopN_Spec.v
theories/TopN_Model.v
theories/TopN_Proofs.v
theories/TopN_Props.v
theories/Helpers_Spec.v
theories/Helpers_Model.v
theories/Helpers_Proofs.v
theories/Helpers_Props.v
theories/Stopwatch_Spec.v
theories/Stopwatch_Model.v
theories/Stopwatch_Proofs.v
theories/Stopwatch_Props.v
theories/Atomics_Spec.v
theories/Atomics_Model.v
theories/Atomics_Proofs.v
theories/Atomics_Props.v
theories/QcUtil.v
theories/RBO_Spec.v
theories/RBO_Model.v
theories/RBO_Proofs.v
theories/RBO_Props.v
theories/Vertex_Spec.v
theories/Vertex_Model.v
theories/Vertex_Proofs.v
theories/Vertex_Props.v
theories/IO_Spec.v
theories/IO_Model.v
theories/IO_Proofs.v
theories/IO_Props.v
theories/Deque_Spec.v
theories/Deque_Model.v
theories/Deque_Proofs.v
theories/Deque_Props.v
theories/Ring_Spec.v
theories/SPSC_Model.v
theories/SPSC_Proofs.v
theories/SPSC_Props.v
theories/MPSC_Spec.v
theories/MPSC_Model.v
theories/MPSC_Proofs.v
theories/MPSC_Props.v
theories/Grow_Spec.v
theories/Grow_Model.v
theories/Grow_Proofs.v
theories/Grow_Props.v
theories/Load_Spec.v
theories/Load_Model.v
theories/Load_Proofs.v
theories/Load_Props.v
theories/Remit_Spec.v
theories/Remit_Model.v
theories/Remit_Proofs.v
theories/Remit_Props.v
theories/Enact_Spec.v
theories/Enact_Model.v
theories/Enact_Vertex.v
theories/Enact_Group.v
theories/Enact_Proofs.v
theories/Enact_Window.v
theories/Enact_Range.v
theories/Enact_Props.v
theories/Inject_Spec.v
theories/Inject_Model.v
theories/Inject_Props.v
theories/Term_Model.v
theories/Term_Proofs.v
theories/Term_Props.v
theories/Engine_Spec.v
theories/Engine_Model.v
theories/Engine_Proofs.v
theories/Engine_Props.v
theories/Engine_Shape.v
theories/Min_Spec.v
theories/Min_Model.v
theories/Min_Proofs.v
theories/Min_Props.v
theories/Active_Spec.v
theories/Active_Model.v
theories/Active_Proofs.v
theories/Active_Props.v
theories/MsgMin_Model.v
theories/MsgMin_Proofs.v
theories/MsgMin_Props.v
theories/Sync_Spec.v
theories/Sync_Model.v
theories/Sync_Proofs.v
theories/SyncPrev_Proofs.v
theories/Sync_Props.v
theories/Recv_Spec.v
theories/Recv_Model.v
theories/Recv_Proofs.v
theories/Recv_Props.v
theories/Colour_Spec.v
theories/Colour_Model.v
theories/Colour_Best.v
theories/Colour_Proofs.v
theories/Colour_Run.v
theories/Colour_Props.v
theories/Wait_Spec.v
theories/Wait_Model.v
theories/Engine_Told.v
theories/Wait_Proofs.v
theories/Wait_Steps.v
theories/Wait_Run.v
theories/Wait_Props.v
theories/Rank_Spec.v
theories/Rank_Model.v
theories/Rank_Proofs.v
theories/Rank_Run.v
theories/Rank_Wake.v
theories/Rank_Props.v
theories/Rank_Error.v
theories/Rank_Close.v
theories/Finish_Spec.v
theories/Finish_Model.v
theories/Finish_Proofs.v
theories/Finish_Exact.v
theories/Finish_Props.v
theories/TC_Spec.v
theories/TC_Model.v
theories/TC_Count.v
theories/TC_Static.v
theories/TC_Proofs.v
theories/TC_Props.v
theories/Window_Spec.v
theories/Window_Model.v
theories/Window_Proofs.v
theories/Window_Props.v
theories/Path_Spec.v
theories/Path_Model.v
theories/Path_Local.v
theories/Path_Proofs.v
theories/Path_Run.v
theories/Path_Final.v
theories/Path_Init.v
theories/Path_Props.v
theories/Link_Spec.v
theories/Link_Proofs.v
theories/Link_Props.v
theories/File_Graph.v
theories/File_Props.v
theories/Rest_Spec.v
theories/Rest_Proofs.v
theories/Rest_Work.v
theories/Rest_Min.v
theories/Rest_Props.v
theories/Rest_Rank.v
theories/RankRest_Props.v
theories/Term_All.v
theories/Whole_Model.v
theories/Whole_Proofs.v
theories/Whole_Props.v
theories/Term_Live.v
theories/Live_Proofs.v
theories/Live_Props.v
theories/Query_Spec.v
theories/Query_Model.v
theories/Query_Proofs.v
theories/Query_Props.v
theories/Check_Model.v
theories/Check_Props.v
theories/PathCheck_Model.v
theories/PathCheck_Proofs.v
theories/PathCheck_Props.v
theories/SStep_Model.v
theories/SStep_Proofs.v
theories/SStep_Props.v
theories/Tool_Spec.v
theories/Tool_Model.v
theories/Tool_Proofs.v
theories/Tool_Props.v
theories/Rest_Prio.v
theories/Rest_Colour.v
theories/Rest_Wait.v
theories/ColourRest_Props.v
theories/Rest_Path.v
theories/PathRest_Props.v
theories/Rest_Gen.v
theories/Rest_TC.v
theories/TCRest_Props.v
theories/Loop_Spec.v
theories/Loop_Model.v
theories/Loop_Proofs.v
theories/Loop_Live.v
theories/Loop_TC.v
theories/Loop_Props.v
theories/Loop_Active.v
theories/Rest_Msg.v
theories/MsgRest_Props.v
theories/Full_Spec.v
theories/Full_Model.v
theories/Full_Proofs.v
theories/Full_Props.v
theories/Block_Spec.v
theories/Block_Model.v
theories/Block_Proofs.v
theories/Block_Props.v
theories/Oracle_Model.v
theories/Oracle_Proofs.v
theories/Oracle_Props.v
theories/QLive_Model.v
theories/QLive_Proofs.v
theories/QLive_Props.v
theories/Born_Spec.v
theories/Born_Model.v
theories/Born_Proofs.v
theories/Born_Props.v
theories/Series_Spec.v
theories/Series_Model.v
theories/Series_Proofs.v
theories/Series_Props.v
theories/Fun_Spec.v
theories/Fun_Model.v
theories/Fun_Proofs.v
theories/Fun_Props.v
theories/Rate_Spec.v
theories/Rate_Model.v
theories/Rate_Proofs.v
theories/Rate_Props.v
theories/Tail_Spec.v
theories/Tail_Model.v
theories/Tail_Proofs.v
theories/Tail_Props.v
theories/MCol_Spec.v
theories/MCol_Model.v
theories/MCol_Graph.v
theories/MCol_Proofs.v
theories/MCol_Wait.v
theories/MCol_Ends.v
theories/MCol_Props.v
theories/Stats_Spec.v
theories/Stats_Model.v
theories/Stats_Proofs.v
theories/Stats_Props.v
theories/Short_Spec.v
theories/Short_Proofs.v
theories/Short_Props.v
theories/Opts_Spec.v
theories/Opts_Model.v
theories/Opts_Proofs.v
theories/Opts_Props.v
theories/BLive_Model.v
theories/BLive_Proofs.v
theories/BLive_Props.v
theories/Copy_Spec.v
theories/Copy_Model.v
theories/Copy_Proofs.v
theories/Copy_Props.v
theories/QDel_Spec.v
theories/QDel_Model.v
theories/QDel_Lists.v
theories/QDel_Proofs.v
theories/QDel_Props.v
theories/QDLive_Model.v
theories/QDLive_Proofs.v
theories/QDLive_Props.v
theories/Static_Spec.v
theories/Static_Model.v
theories/Static_Proofs.v
theories/Static_Props.v
theories/QWin_Spec.v
theories/QWin_Model.v
theories/QWin_Proofs.v
theories/QWin_Timed.v
theories/QWin_Props.v
theories/QWLive_Model.v
theories/QWLive_Proofs.v
theories/QWLive_Props.v
theories/Flow_Model.v
theories/Flow_Proofs.v
theories/Flow_Props.v
theories/Turn_Model.v
theories/Turn_Proofs.v
theories/Turn_Props.v
theories/Summ_Spec.v
theories/Summ_Model.v
theories/Summ_Proofs.v
theories/Summ_Props.v
theories/Wrap_Model.v
theories/Wrap_Proofs.v
theories/Wrap_Props.v
theories/WrapS_Model.v
theories/WrapS_Proofs.v
theories/WrapS_Props.v
theories/WrapO_Props.v
theories/OfferSP_Model.v
theories/OfferSP_Proofs.v
theories/OfferSP_Props.v
