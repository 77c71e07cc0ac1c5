-Q theories Verif
theories/Base.v
theories/Csum_Model.v
theories/Csum_Proofs.v
theories/Props_Csum.v
theories/Codec_Model.v
theories/Codec_Spec.v
theories/Codec_Proofs.v
theories/NodeCodec_Proofs.v
theories/SbCodec_Proofs.v
theories/Props_Codec.v
theories/Pack_Model.v
theories/Pack_Spec.v
theories/Pack_Proofs.v
theories/PackFile_Model.v
theories/PackFile_Proofs.v
theories/PackPath_Proofs.v
theories/Props_Pack.v
theories/SpaceMap_Model.v
theories/SpaceMap_Spec.v
theories/SpaceMap_Proofs.v
theories/Props_SpaceMap.v
theories/Io_Model.v
theories/Io_Spec.v
theories/Io_Proofs.v
theories/IoMany_Proofs.v
theories/Batcher_Model.v
theories/Batcher_Spec.v
theories/Batcher_Proofs.v
theories/Props_Io.v
theories/Builder_Model.v
theories/Builder_Spec.v
theories/Builder_Proofs.v
theories/NodeBuilder_Proofs.v
theories/BtreeBuild_Proofs.v
theories/BtreeRead_Proofs.v
theories/Session_Model.v
theories/Session_Spec.v
theories/Session_Proofs.v
theories/Props_Btree.v
theories/Utils_Model.v
theories/Utils_Spec.v
theories/Utils_Proofs.v
theories/UtilsNum_Proofs.v
theories/Props_Utils.v
theories/ThinOut_Model.v
theories/ThinOut_Spec.v
theories/ThinOut_Proofs.v
theories/ThinOut2_Proofs.v
theories/Props_ThinOut.v
theories/Runs_Model.v
theories/Runs_Spec.v
theories/Runs_Proofs.v
theories/Props_Runs.v
theories/Walker_Model.v
theories/Walker_Spec.v
theories/Walker_Proofs.v
theories/WalkTree_Proofs.v
theories/Props_Walker.v
theories/Array_Model.v
theories/Array_Spec.v
theories/Array_Proofs.v
theories/ArrayWalk_Proofs.v
theories/Props_Array.v
theories/Era_Model.v
theories/Era_Spec.v
theories/EraRuns_Proofs.v
theories/EraRestore_Proofs.v
theories/EraDump_Proofs.v
theories/EraInval_Proofs.v
theories/Props_Era.v
theories/SmWrite_Model.v
theories/SmWrite_Spec.v
theories/SmWrite_Proofs.v
theories/SmAlloc_Proofs.v
theories/SmMeta_Proofs.v
theories/SmIndex_Proofs.v
theories/SmMetaTop_Proofs.v
theories/Props_SmWrite.v
theories/SmCheck_Model.v
theories/SmCheck_Spec.v
theories/WalkVisit_Proofs.v
theories/SmCheck_Proofs.v
theories/SmCheckTop_Proofs.v
theories/SmRepair_Proofs.v
theories/Props_SmCheck.v
theories/Restore_Model.v
theories/Restore_Spec.v
theories/RestoreSafe_Proofs.v
theories/Restore_Proofs.v
theories/Props_Restore.v
theories/ContigSafe_Proofs.v
theories/RestoreDev_Proofs.v
theories/RestoreDoc_Spec.v
theories/RestoreRun_Proofs.v
theories/RestoreDoc_Proofs.v
theories/RestoreFin_Proofs.v
theories/Props_RestoreDoc.v
theories/Shrink_Model.v
theories/Shrink_Spec.v
theories/Shrink_Proofs.v
theories/Props_Shrink.v
theories/Copier_Model.v
theories/Copier_Spec.v
theories/Copier_Proofs.v
theories/CopierRun_Proofs.v
theories/CopierLive_Proofs.v
theories/CopierRescue_Proofs.v
theories/Props_Copier.v
theories/Writeback_Model.v
theories/Writeback_Spec.v
theories/WritebackSel_Proofs.v
theories/WritebackCopy_Proofs.v
theories/WritebackUpd_Proofs.v
theories/Props_Writeback.v
theories/Props_WritebackEx.v
theories/CacheCheck_Model.v
theories/CacheCheck_Spec.v
theories/CacheCheck_Proofs.v
theories/CacheSm_Proofs.v
theories/Props_CacheCheck.v
theories/Props_CacheCheckEx.v
theories/CacheIo_Model.v
theories/CacheIo_Spec.v
theories/CacheRestore_Proofs.v
theories/CacheRestoreFin_Proofs.v
theories/CacheDump_Proofs.v
theories/Props_CacheIo.v
theories/Props_CacheIoEx.v
theories/Repair_Model.v
theories/Repair_Spec.v
theories/RepairOrd_Proofs.v
theories/RepairInfo_Proofs.v
theories/RepairRef_Proofs.v
theories/RepairAll_Proofs.v
theories/RepairPanic_Proofs.v
theories/Props_Repair.v
theories/Props_RepairSb.v
theories/Props_RepairEx.v
theories/Props_RepairAll.v
theories/ThinCheck_Model.v
theories/ThinCheck_Spec.v
theories/ThinSum_Proofs.v
theories/ThinRead_Proofs.v
theories/Props_ThinSum.v
theories/Props_ThinSumEx.v
theories/ThinCheck_Proofs.v
theories/ThinSm_Proofs.v
theories/ThinFix_Proofs.v
theories/Props_ThinCheck.v
theories/Props_ThinCheckEx.v
theories/Merge_Model.v
theories/Merge_Spec.v
theories/Merge_Proofs.v
theories/Props_Merge.v
theories/Dump_Model.v
theories/Dump_Spec.v
theories/Dump_Proofs.v
theories/DumpDoc_Proofs.v
theories/DumpTop_Proofs.v
theories/Props_Dump.v
theories/Props_DumpEx.v
theories/Ls_Model.v
theories/Ls_Spec.v
theories/LsAlg_Proofs.v
theories/LsRead_Proofs.v
theories/LsSum_Proofs.v
theories/Props_Ls.v
theories/Props_LsEx.v
theories/Props_LsRestore.v
theories/EraIo_Model.v
theories/Order_Proofs.v
theories/Props_Order.v
theories/EraIo_Spec.v
theories/EraIo_Proofs.v
theories/Props_EraIo.v
theories/CacheCmd_Model.v
theories/CacheCmd_Spec.v
theories/CacheCmd_Proofs.v
theories/CacheCmdFix_Proofs.v
theories/CacheVerdict_Proofs.v
theories/Props_CacheCmd.v
theories/Props_CacheCmdRestored.v
theories/Props_CacheCmdEx.v
theories/EraCmd_Model.v
theories/EraCmd_Spec.v
theories/EraCmd_Proofs.v
theories/Props_EraCmd.v
theories/Props_EraCmdEx.v
theories/ThinShare_Spec.v
theories/ThinShare_Proofs.v
theories/Props_ThinShareEx.v
theories/DumpSound_Spec.v
theories/DumpSound_Proofs.v
theories/Props_DumpSound.v
theories/Rmap_Model.v
theories/Props_Rmap.v
theories/Props_RmapEx.v
theories/Delta_Model.v
theories/Props_Delta.v
theories/Props_DeltaEx.v
