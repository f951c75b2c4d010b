[
 {
  "file": "Startup_Model",
  "def": "Startup_Model.step",
  "old": "step P s (set_built s i Up (Some None))\n| s_bexc",
  "new": "step P s (set_built s i Up None)\n| s_bexc",
  "edit": "exception_q.put(None) is forgotten after a successful build",
  "breaks": [
   "C102"
  ]
 },
 {
  "file": "Startup_Model",
  "def": "Startup_Model.step",
  "old": "step P s (set_built s i (leave_with e) (item_of e))",
  "new": "step P s (set_built s i (leave_with e) (Some None))",
  "edit": "the exception of a constructor is swallowed: None is put",
  "breaks": [
   "C102"
  ]
 },
 {
  "file": "Startup_Model",
  "def": "Startup_Model.step",
  "old": "step P s (set_built s i (leave_with e) (item_of e))",
  "new": "step P s (set_built s i (Gone None) None)",
  "edit": "nothing is put when a constructor raises",
  "breaks": [
   "C102"
  ]
 },
 {
  "file": "Startup_Model",
  "def": "Startup_Model.step",
  "old": "step P s (set_built s (npm P + d) Up (Some None))",
  "new": "step P s (set_act s (npm P + d) Up)",
  "edit": "runtime services do not put None",
  "breaks": [
   "C102"
  ]
 },
 {
  "file": "Startup_Model",
  "def": "Startup_Model.step",
  "old": "| k_start s : cl s = KCheck (nact P) ->",
  "new": "| k_start s i : cl s = KCheck i ->",
  "edit": "initialize does not read every queue",
  "breaks": [
   "C102"
  ]
 },
 {
  "file": "Startup_Model",
  "def": "Startup_Model.step",
  "old": "| k_start s : cl s = KCheck (nact P) ->",
  "new": "| k_start s : cl s = KCheck (npm P) ->",
  "edit": "initialize reads the queues of the process models only",
  "breaks": [
   "C102"
  ]
 },
 {
  "file": "Startup_Model",
  "def": "Startup_Model.step",
  "old": "(mkState (act s) (item s) (dom s) true KWait)",
  "new": "(mkState (act s) (item s) (dom s) (started s) KWait)",
  "edit": "start() does not set _is_started",
  "breaks": [
   "C102"
  ]
 },
 {
  "file": "Startup_Model",
  "def": "Startup_Model.step",
  "old": "unpickles e = true -> truthy e = true ->\n    step P s (set_cl s (KRan (StartError e)))",
  "new": "unpickles e = true -> truthy e = true ->\n    step P s (set_cl s (KCheck (S i)))",
  "edit": "the exception of a constructor is printed but not raised",
  "breaks": [
   "C102"
  ]
 },
 {
  "file": "Startup_Model",
  "def": "Startup_Model.step",
  "old": "unpickles e = true -> truthy e = true ->\n    step P s (set_cl s (KRan (StartError e)))",
  "new": "unpickles e = true -> truthy e = false ->\n    step P s (set_cl s (KRan (StartError e)))",
  "edit": "`if not e` instead of `if e`",
  "breaks": [
   "C102"
  ]
 },
 {
  "file": "Startup_Model",
  "def": "Startup_Model.step",
  "old": "| k_return s : cl s = KWait -> (forall d, d < ndom P -> dom s d = DRead RDone) ->",
  "new": "| k_return s d : cl s = KWait -> d < ndom P -> dom s d = DRead RDone ->",
  "edit": "the first DONE ends the wait",
  "breaks": [
   "C102"
  ]
 },
 {
  "file": "Startup_Model",
  "def": "Startup_Model.step",
  "old": "(set_dom_cl s d (DRead RError) (KJoin 0 0))",
  "new": "(set_dom s d (DRead RError))",
  "edit": "an ERROR response is ignored",
  "breaks": [
   "C102"
  ]
 },
 {
  "file": "Startup_Model",
  "def": "Startup_Model.step",
  "old": "(set_dom_cl s d (DRead RError) (KJoin 0 0))",
  "new": "(set_dom_cl s d (DRead RError) (KRan Returned))",
  "edit": "an ERROR response ends the run as if it were DONE",
  "breaks": [
   "C102"
  ]
 },
 {
  "file": "Startup_Model",
  "def": "Startup_Model.step",
  "old": "(set_dom_cl s d (DRead RError) (KJoin 0 0))",
  "new": "(set_dom_cl s d (DRead RError) (KJoin 1 0))",
  "edit": "the join loop skips the first actor",
  "breaks": [
   "C102"
  ]
 },
 {
  "file": "Startup_Model",
  "def": "Startup_Model.step",
  "old": "(set_dom_cl s d (DRead RError) (KJoin 0 0))",
  "new": "(set_dom_cl s d (DRead RError) (KJoin 0 1))",
  "edit": "error_cnt starts at one",
  "breaks": [
   "C102"
  ]
 },
 {
  "file": "Startup_Model",
  "def": "Startup_Model.step",
  "old": "step P s (set_cl s (KJoin (S i) (S n)))",
  "new": "step P s (set_cl s (KJoin (S i) n))",
  "edit": "error_cnt is not incremented",
  "breaks": [
   "C102"
  ]
 },
 {
  "file": "Startup_Model",
  "def": "Startup_Model.step",
  "old": "act s i = Gone None -> step P s (set_cl s (KJoin (S i) n))",
  "new": "act s i = Gone None -> step P s (set_cl s (KJoin (S i) (S n)))",
  "edit": "every actor counts as an error",
  "breaks": [
   "C102"
  ]
 },
 {
  "file": "Startup_Model",
  "def": "Startup_Model.step",
  "old": "| k_failed s n : cl s = KJoin (nact P) n ->",
  "new": "| k_failed s n i : cl s = KJoin i n ->",
  "edit": "the error is raised before all actors are joined",
  "breaks": [
   "C102"
  ]
 },
 {
  "file": "Startup_Model",
  "def": "Startup_Model.step",
  "old": "unpickles e = false ->\n    step P s (set_cl s (KRan JoinBroken))",
  "new": "unpickles e = false ->\n    step P s (set_cl s (KJoin (S i) n))",
  "edit": "an exception that cannot be read is skipped",
  "breaks": [
   "C102"
  ]
 },
 {
  "file": "Startup_Model",
  "def": "Startup_Model.step",
  "old": "| k_all_terminated s r : cl s = KStopWait r (ndom P) -> step P s (set_cl s (KStopJoin r 0))",
  "new": "| k_all_terminated s r : cl s = KStopWait r (ndom P) -> step P s (set_cl s (KEnd r))",
  "edit": "stop() does not join the system processes",
  "breaks": [
   "C102"
  ]
 },
 {
  "file": "Startup_Model",
  "def": "Startup_Model.step",
  "old": "started_result r = true -> step P s (set_cl s (KStopWait r 0))",
  "new": "started_result r = true -> step P s (set_cl s (KStopJoin r 0))",
  "edit": "stop() does not send STOP",
  "breaks": [
   "C102"
  ]
 },
 {
  "file": "Startup_Model",
  "def": "Startup_Model.step",
  "old": "started_result r = true -> step P s (set_cl s (KStopWait r 0))",
  "new": "started_result r = true -> step P s (set_cl s (KStopWait r 1))",
  "edit": "stop() skips the first service",
  "breaks": [
   "C102"
  ]
 },
 {
  "file": "Startup_Model",
  "def": "Startup_Model.step",
  "old": "| k_end s r : cl s = KStopJoin r (nact P) ->",
  "new": "| k_end s r : cl s = KStopJoin r (npm P) ->",
  "edit": "stop() joins the process models only",
  "breaks": [
   "C102"
  ]
 },
 {
  "file": "Startup_Model",
  "def": "Startup_Model.step",
  "old": "dom s d = DRead RDone -> step P s (set_dom s d DStopped)",
  "new": "dom s d = DStart -> step P s (set_dom s d DStopped)",
  "edit": "services do not listen to STOP after a run",
  "breaks": [
   "C102"
  ]
 },
 {
  "file": "Startup_Model",
  "def": "Startup_Model.leaving",
  "old": "match x with DOut RError | DRead RError | DStopped => true | _ => false end.",
  "new": "match x with DStopped => true | _ => false end.",
  "edit": "a service that has answered ERROR does not leave",
  "breaks": [
   "C102"
  ]
 },
 {
  "file": "Startup_Model",
  "def": "Startup_Model.leaving",
  "old": "match x with DOut RError | DRead RError | DStopped => true | _ => false end.",
  "new": "match x with DOut RError | DRead RError => true | _ => false end.",
  "edit": "a service does not leave on STOP",
  "breaks": [
   "C102"
  ]
 },
 {
  "file": "Startup_Model",
  "def": "Startup_Model.response",
  "old": "if existsb silent l then None else if existsb raises l",
  "new": "if existsb raises l",
  "edit": "a service answers ERROR without waiting for the other process models",
  "breaks": [
   "C102"
  ]
 },
 {
  "file": "Startup_Model",
  "def": "Startup_Model.response",
  "old": "if existsb silent l then None else if existsb raises l",
  "new": "if existsb silent l then None else if forallb raises l",
  "edit": "a service answers ERROR only if every process model raises",
  "breaks": [
   "C102"
  ]
 },
 {
  "file": "Startup_Model",
  "def": "Startup_Model.response",
  "old": "if existsb raises l then Some RError else Some RDone",
  "new": "Some RDone",
  "edit": "a service does not look at the error flag",
  "breaks": [
   "C102"
  ]
 },
 {
  "file": "Startup_Model",
  "def": "Startup_Model.response",
  "old": "let l := filter (in_dom d) (pms P) in",
  "new": "let l := pms P in",
  "edit": "a service collects the answers of every domain",
  "breaks": [
   "C102"
  ]
 },
 {
  "file": "Startup_Model",
  "def": "Startup_Model.leave_with",
  "old": "if pickles e then if fits e then Gone (Some e) else Stuck else Gone None.",
  "new": "if pickles e then Gone None else Gone None.",
  "edit": "the exception is not sent to the parent",
  "breaks": [
   "C102"
  ]
 },
 {
  "file": "Startup_Model",
  "def": "Startup_Model.leave_with",
  "old": "if pickles e then if fits e then Gone (Some e) else Stuck else Gone None.",
  "new": "Stuck.",
  "edit": "the process hangs when it reports its exception",
  "breaks": [
   "C102"
  ]
 },
 {
  "file": "Startup_Model",
  "def": "Startup_Model.item_of",
  "old": "if pickles e then Some (Some e) else None.",
  "new": "if pickles e then Some None else None.",
  "edit": "None is put in place of the exception",
  "breaks": [
   "C102"
  ]
 },
 {
  "file": "Startup_Model",
  "def": "Startup_Model.started_result",
  "old": "match r with StartError _ | StartBroken => false | _ => true end.",
  "new": "match r with StartError _ | StartBroken | Returned => false | _ => true end.",
  "edit": "a finished run counts as not started",
  "breaks": [
   "C102"
  ]
 },
 {
  "file": "Startup_Model",
  "def": "Startup_Model.silent",
  "old": "match p_course p with CDies | CBlocked => true | _ => false end",
  "new": "match p_course p with CBlocked => true | _ => false end",
  "edit": "a process that dies counts as having answered",
  "breaks": [
   "C102"
  ]
 },
 {
  "file": "Startup_Model",
  "def": "Startup_Model.step",
  "old": "p_course p = CRaise e ->\n    step P s (set_act s i (leave_with e))",
  "new": "p_course p = CRaise e ->\n    step P s (set_act s i Up)",
  "edit": "a process that raises does not leave",
  "breaks": [
   "C102"
  ]
 }
]