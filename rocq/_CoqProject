-Q theories Verif
theories/Base.v
theories/Chart.v
theories/Env.v
theories/Machine.v
theories/Api.v
theories/Tests.v
theories/ChartFacts.v
theories/Abs.v
theories/NoDiv.v
theories/RefineBase.v
theories/RefineStep.v
theories/RefineHeap.v
theories/RefineSim.v
theories/RefineBuild.v
theories/RefineExit.v
theories/Refine.v
theories/Spec.v
theories/CommonContext.v
theories/Wp.v
theories/Good.v
theories/Leave.v
theories/Vacant.v
theories/WpExit.v
theories/WpTerm.v
theories/Build.v
theories/WpBuild.v
theories/Steps.v
theories/TraceSpec.v
theories/Ledger.v
theories/Tracks.v
theories/Replay.v
theories/Story.v
theories/WpReact.v
theories/WpEvent.v
theories/Calls.v
theories/Meaning.v
theories/Seen.v
theories/Demo.v
theories/Moves.v
theories/Escape.v
theories/React.v
theories/Kept.v
theories/Asked.v
theories/Outcome.v
theories/Unstable.v
theories/Recall.v
theories/Alloc.v
theories/HistoryKey.v
theories/QueueMono.v
theories/PropsBasic.v
theories/PropsSafety.v
theories/PropsTransit.v
theories/PropsRelax.v
theories/PropsReact.v
theories/PropsQueue.v
theories/PropsHist.v
theories/Fifo.v
theories/FifoSpec.v
theories/FifoInv.v
theories/FifoDemo.v
theories/Sched.v
theories/SchedInv.v
theories/PropsFifo.v
theories/FifoLive.v
theories/PropsLive.v
theories/PropsEnd.v
theories/PropsSched.v
theories/EventRef.v
theories/EventInv.v
theories/PropsEvent.v
theories/ResultVal.v
theories/PropsResult.v
theories/Cast.v
theories/PropsCast.v
theories/Shift.v
theories/PropsFresh.v
theories/PropsAlloc.v
theories/PropsWait.v
theories/PropsLoop.v
theories/Async.v
theories/AsyncInv.v
theories/PropsAsync.v
theories/TestsFifo.v
theories/Rtti.v
theories/PropsRtti.v
theories/Sight.v
theories/PropsSight.v
