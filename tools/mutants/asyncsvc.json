[
 {
  "file": "AsyncSvc_Model",
  "def": "send_all",
  "old": "fun i => push (ps i) c.",
  "new": "fun i => if Nat.eqb i 0 then push (ps i) c else ps i.",
  "edit": "commands go to the first process only",
  "breaks": [
   "C86"
  ]
 },
 {
  "file": "AsyncSvc_Model",
  "def": "finish",
  "old": "(if all_are DONE acc then [DONE] else [])",
  "new": "(if has DONE acc then [DONE] else [])",
  "edit": "DONE as soon as one process is done",
  "breaks": [
   "C86"
  ]
 },
 {
  "file": "AsyncSvc_Model",
  "def": "sstep",
  "old": "(send_all (procs s) [RUN; c])",
  "new": "(send_all (procs s) [c; RUN])",
  "edit": "num_steps sent before RUN",
  "breaks": [
   "C86"
  ]
 },
 {
  "file": "AsyncSvc_Model",
  "def": "sstep",
  "old": "let again := match k with KResp => false | _ => m =? DONE end in",
  "new": "let again := false in",
  "edit": "no second receive after DONE while stopping",
  "breaks": [
   "C86"
  ]
 },
 {
  "file": "AsyncSvc_Model",
  "def": "sstep",
  "old": "let again := match k with KResp => false | _ => m =? DONE end in",
  "new": "let again := (m =? DONE) in",
  "edit": "second receive also for run responses",
  "breaks": [
   "C86"
  ]
 },
 {
  "file": "AsyncSvc_Model",
  "def": "response",
  "old": "AskStop => REQ_STOP | AskPause => REQ_PAUSE",
  "new": "AskStop => REQ_PAUSE | AskPause => REQ_STOP",
  "edit": "requests swapped",
  "breaks": [
   "C86"
  ]
 },
 {
  "file": "AsyncSvc_Model",
  "def": "pstep",
  "old": "outq := outq p ++ [PAUSED]; ppos := PIdle",
  "new": "outq := outq p ++ [PAUSED]; ppos := PDead",
  "edit": "pause ends the process",
  "breaks": [
   "C86"
  ]
 },
 {
  "file": "AsyncSvc_Model",
  "def": "pstep",
  "old": "outq := outq p ++ [response (asks b)]; ppos := PIdle; log := log p ++ [n] |}",
  "new": "outq := outq p; ppos := PIdle; log := log p ++ [n] |}",
  "edit": "no response after a run",
  "breaks": [
   "C86"
  ]
 },
 {
  "file": "AsyncSvc_Model",
  "def": "pstep",
  "old": "PNum, n :: q => Some {| inq := q; outq := outq p; ppos := PRun n; log",
  "new": "PNum, n :: q => Some {| inq := q; outq := outq p; ppos := PRun 1; log",
  "edit": "num_steps ignored",
  "breaks": [
   "C86"
  ]
 },
 {
  "file": "AsyncSvc_Model",
  "def": "pstep",
  "old": "outq := outq p ++ [TERMINATED]; ppos := PDead",
  "new": "outq := outq p ++ [TERMINATED]; ppos := PIdle",
  "edit": "stop does not end the process",
  "breaks": [
   "C86"
  ]
 },
 {
  "file": "AsyncSvc_Model",
  "def": "rstep",
  "old": "Some (set_rt s (script s) RReady st false (res ++ [Returned]) (r2s s) t)\n          else Some (raise s t)\n      end\n  | RPause =>",
  "new": "Some (set_rt s (script s) RReady st run (res ++ [Returned]) (r2s s) t)\n          else Some (raise s t)\n      end\n  | RPause =>",
  "edit": "is_running stays set after a run",
  "breaks": [
   "C86"
  ]
 },
 {
  "file": "AsyncSvc_Model",
  "def": "rstep",
  "old": "if d =? REQ_PAUSE then Some (set_rt s (script s) RPause st run res (r2s s ++ [PAUSE]) t)",
  "new": "if d =? REQ_PAUSE then Some (set_rt s (script s) RStop st run res (r2s s ++ [STOP]) t)",
  "edit": "a pause request stops",
  "breaks": [
   "C86"
  ]
 },
 {
  "file": "AsyncSvc_Model",
  "def": "finish",
  "old": "(at_run v SDead false)",
  "new": "(at_run v SSelect false)",
  "edit": "service goes on after stop",
  "breaks": [
   "C86"
  ]
 },
 {
  "file": "AsyncSvc_Model",
  "def": "sstep",
  "old": "(at_run v SSelect true)",
  "new": "(at_run v SSelect false)",
  "edit": "service does not listen to the processes after a run command",
  "breaks": [
   "C86"
  ]
 },
 {
  "file": "AsyncSvc_Model",
  "def": "sstep",
  "old": "(at_ v (SGetVar (Z.to_nat m)))",
  "new": "(at_ v (SGetVar 0))",
  "edit": "get always asks the first process",
  "breaks": [
   "C86"
  ]
 },
 {
  "file": "AsyncSvc_Model",
  "def": "sstep",
  "old": "if (j <? N)%nat then",
  "new": "if (S j <? N)%nat then",
  "edit": "the last process is not waited for",
  "breaks": [
   "C86"
  ]
 },
 {
  "file": "AsyncSvc_Model",
  "def": "rstep",
  "old": "if run then Some (set_rt s sc RRun st run res (r2s s) (s2r s))\n          else Some (set_rt s sc RReady st run (res ++ [Returned])",
  "new": "if negb run then Some (set_rt s sc RRun st run res (r2s s) (s2r s))\n          else Some (set_rt s sc RReady st run (res ++ [Returned])",
  "edit": "wait() does not wait when running",
  "breaks": [
   "C86"
  ]
 },
 {
  "file": "AsyncSvc_Model",
  "def": "may_return",
  "old": "UntilPause => match q with c :: _ => c =? PAUSE",
  "new": "UntilPause => match q with c :: _ => c =? STOP",
  "edit": "check_for_pause_cmd looks for STOP",
  "breaks": [
   "C86"
  ]
 },
 {
  "file": "AsyncSvc_Model",
  "def": "finish",
  "old": "let rs := freq_stop v || has REQ_STOP acc in",
  "new": "let rs := freq_stop v in",
  "edit": "stop requests dropped",
  "breaks": [
   "C86"
  ]
 },
 {
  "file": "AsyncSvc_Model",
  "def": "rstep",
  "old": "(if blocking then RRun else RReady) true true",
  "new": "(if blocking then RReady else RReady) true true",
  "edit": "a blocking run does not block",
  "breaks": [
   "C86"
  ]
 }
]