-Q theories Verif
theories/Spec.v
theories/SpecFacts.v
theories/Compare.v
theories/CompareProof.v
theories/Llrb.v
theories/LlrbSpec.v
theories/LlrbProof.v
theories/LlrbDelete.v
theories/LlrbApi.v
theories/LlrbProps.v
theories/PropsCompare.v
theories/PropsLlrb.v
theories/BTree.v
theories/HProp.v
theories/Lru.v
theories/Wp.v
theories/Kv.v
theories/Codec.v
theories/Ghost.v
theories/Order.v
theories/PsTree.v
theories/Rep.v
theories/Load.v
theories/Search.v
theories/Update.v
theories/Plug.v
theories/Insert.v
theories/Borrow.v
theories/Merge.v
theories/Rebal.v
theories/Api.v
theories/Walk.v
theories/Touch.v
theories/Maint.v
theories/Report.v
theories/Open.v
theories/Dumps.v
theories/Blame.v
theories/Pres.v
theories/Local.v
theories/Machine.v
theories/World.v
theories/Client.v
theories/Sample.v
theories/Disk.v
theories/Picture.v
theories/Hist.v
theories/Seat.v
theories/Still.v
theories/History.v
theories/Footprint.v
theories/Sweep.v
theories/Aside.v
theories/Cache.v
theories/CacheHist.v
theories/Cost.v
theories/Ticks.v
theories/Writes.v
theories/Threads.v
theories/Crowd.v
theories/Wpt.v
theories/Calls.v
theories/Steady.v
theories/Parts.v
theories/Conc.v
theories/Joint.v
theories/Sched.v
theories/Start.v
theories/Moves.v
theories/Lives.v
theories/Free.v
theories/Format.v
theories/Runs.v
theories/Crew.v
theories/PropsTree.v
theories/PropsStore.v
theories/PropsFail.v
theories/PropsPicture.v
theories/PropsFormat.v
theories/Hurt.v
theories/Damage.v
theories/Sound.v
theories/Recent.v
theories/Way.v
theories/PropsRecent.v
theories/PropsDamage.v
theories/PropsCache.v
theories/PropsConc.v
theories/PropsCost.v
theories/LlrbDump.v
theories/Dumped.v
theories/PropsDump.v
theories/Foreign.v
theories/Strangers.v
theories/PropsForeign.v
theories/Frees.v
theories/Wakes.v
theories/PropsFrees.v
theories/Mute.v
theories/Mem.v
theories/PropsMem.v
theories/LlrbThreads.v
theories/PropsShared.v
theories/LlrbErrors.v
theories/PropsErrors.v
theories/LlrbAsked.v
theories/PropsAsked.v
theories/LlrbFailed.v
theories/PropsFailed.v
theories/PropsHalf.v
theories/Gentle.v
theories/PropsLook.v
theories/Limits.v
theories/PropsLimits.v
