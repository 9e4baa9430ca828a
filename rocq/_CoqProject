-Q theories Verif
theories/Base.v
theories/Rle_Model.v
theories/Rle_Spec.v
theories/Rle_Proofs.v
theories/Rle_Proofs2.v
theories/Rle_Props.v
theories/Wire_Model.v
theories/Wire_Spec.v
theories/Wire_Proofs.v
theories/Wire_Proofs2.v
theories/Wire_Props.v
theories/Crypt_Model.v
theories/Crypt_Spec.v
theories/Crypt_Proofs.v
theories/Crypt_Props.v
theories/Omap_Model.v
theories/Omap_Spec.v
theories/Omap_Proofs.v
theories/Omap_Proofs2.v
theories/Omap_Props.v
theories/Dmap_Model.v
theories/Dmap_Spec.v
theories/Dmap_Proofs.v
theories/Dmap_Props.v
theories/Raft_Model.v
theories/Raft_Spec.v
theories/Raft_Abs.v
theories/Raft_InvL.v
theories/Raft_InvL2.v
theories/Raft_InvC.v
theories/Raft_InvC2.v
theories/Raft_Inv.v
theories/Raft_Refine.v
theories/Raft_Refine2.v
theories/Raft_Check.v
theories/Raft_Props.v
theories/Span_Model.v
theories/Span_Spec.v
theories/Span_Props.v
theories/Hlc_Model.v
theories/Hlc_Spec.v
theories/Hlc_Props.v
theories/Pong_Model.v
theories/Pong_Spec.v
theories/Pong_Props.v
theories/Mmap_Model.v
theories/Mmap_Spec.v
theories/Mmap_Proofs.v
theories/Mmap_Props.v
theories/Limit_Model.v
theories/Limit_Props.v
theories/Cdc_Model.v
theories/Cdc_Spec.v
theories/Cdc_Proofs.v
theories/Cdc_Props.v
theories/Sync_Model.v
theories/Sync_Spec.v
theories/Sync_Proofs.v
theories/Sync_Props.v
theories/Scan_Model.v
theories/Scan_Spec.v
theories/Scan_Proofs.v
theories/Scan_Proofs2.v
theories/Scan_Par.v
theories/Scan_Props.v
theories/Kv_Model.v
theories/Kv_Spec.v
theories/Kv_Proofs.v
theories/Kv_Hist.v
theories/Kv_Rep.v
theories/Kv_Scan.v
theories/Kv_Props.v
theories/Art_Model.v
theories/Art_Node.v
theories/Art_Node2.v
theories/Art_Tree.v
theories/Art_Tree2.v
theories/Art_Tree3.v
theories/Art_Search.v
theories/Art_Iter.v
theories/Art_Spec.v
theories/Art_Proofs.v
theories/Art_Hist.v
theories/Art_Props.v
theories/Member_Model.v
theories/Member_Spec.v
theories/Member_Tree.v
theories/Member_Abs.v
theories/Member_Inv.v
theories/Member_Overlap.v
theories/Member_Refine.v
theories/Member_Change.v
theories/Member_Gate.v
theories/Member_Props.v
theories/Wal_Model.v
theories/Wal_Spec.v
theories/Wal_Proofs.v
theories/Wal_Proofs2.v
theories/Wal_Proofs3.v
theories/Wal_Proofs4.v
theories/Wal_Proofs5.v
theories/Wal_Props.v
theories/Persist_Model.v
theories/Persist_Spec.v
theories/Persist_Props.v
theories/Sess_Model.v
theories/Sess_Spec.v
theories/Sess_Proofs.v
theories/Sess_Proofs2.v
theories/Sess_Proofs3.v
theories/Sess_Props.v
theories/Rpc_Model.v
theories/Rpc_Spec.v
theories/Rpc_Proofs.v
theories/Rpc_Proofs2.v
theories/Rpc_Proofs3.v
theories/Rpc_Proofs4.v
theories/Rpc_Proofs5.v
theories/Rpc_Proofs6.v
theories/Rpc_Proofs7.v
theories/Rpc_Proofs8.v
theories/Rpc_Proofs9.v
theories/Rpc_Proofs10.v
theories/Rpc_Props.v
theories/Rpc_Props2.v
theories/NetRpc_Model.v
theories/NetRpc_Spec.v
theories/NetRpc_Props.v
theories/Frag_Model.v
theories/Frag_Spec.v
theories/Frag_Props.v
theories/Ckt_Model.v
theories/Ckt_Spec.v
theories/Ckt_View.v
theories/Ckt_Proofs.v
theories/Ckt_Proofs2.v
theories/Ckt_Proofs3.v
theories/Ckt_Proofs4.v
theories/Ckt_Proofs5.v
theories/Ckt_Proofs6.v
theories/Ckt_Props.v
theories/Lease_Raft.v
theories/Lease_Model.v
theories/Lease_Spec.v
theories/Lease_Handlers.v
theories/Lease_Proofs.v
theories/Lease_Props.v
theories/Herm_Spec.v
theories/Herm_Model.v
theories/Herm_Order.v
theories/Herm_Lin.v
theories/Herm_Tick.v
theories/Herm_Uni.v
theories/Herm_Glob.v
theories/Herm_All.v
theories/Herm_AllG.v
theories/Herm_Bc.v
theories/Herm_Conv.v
theories/Herm_Nonlin.v
theories/Herm_Props.v
theories/Cas_Model.v
theories/Cas_Spec.v
theories/Cas_Proofs.v
theories/Cas_Files.v
theories/Cas_Calm.v
theories/Cas_More.v
theories/Cas_Bound.v
theories/Cas_Props.v
theories/Czar_Model.v
theories/Czar_Spec.v
theories/Czar_Proofs.v
theories/Czar_Step.v
theories/Czar_Events.v
theories/Czar_Members.v
theories/Czar_Views.v
theories/Czar_Ping.v
theories/Czar_Runs.v
theories/Czar_One.v
theories/Czar_Main.v
theories/Czar_Late.v
theories/Czar_Dead.v
theories/Czar_More.v
theories/Czar_Told.v
theories/Czar_Props.v
theories/Tofu_Model.v
theories/Tofu_Spec.v
theories/Tofu_Text.v
theories/Tofu_Proofs.v
theories/Tofu_Conc.v
theories/Tofu_Props.v
theories/Dsync_Model.v
theories/Dsync_Spec.v
theories/Dsync_Proofs.v
theories/Dsync_Tree.v
theories/Dsync_Main.v
theories/Dsync_More.v
theories/Dsync_Props.v
theories/Wait_Model.v
theories/Wait_Spec.v
theories/Wait_Proofs.v
theories/Wait_Order.v
theories/Wait_Main.v
theories/Wait_Told.v
theories/Wait_Props.v
