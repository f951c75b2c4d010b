[
{
"file": "Kahn_Model",
"def": "apply_op",
"old": "(upd (chan s) c (chan_of s c ++ [v]), upd",
"new": "(upd (chan s) c (v :: chan_of s c), upd",
"edit": "a message is put in front of the queue",
"breaks": [
"C88"
]
},
{
"file": "Kahn_Model",
"def": "apply_op",
"old": "upd (chan s) c (tl (chan_of s c))",
"new": "upd (chan s) c (removelast (chan_of s c))",
"edit": "receiving removes the newest message",
"breaks": [
"C88"
]
},
{
"file": "Kahn_Model",
"def": "fires",
"old": "fires N s p l (k v) (OPop c)\n",
"new": "fires N s p l (k v) (OPop (S c))\n",
"edit": "receiving removes a message from the next channel",
"breaks": [
"C88"
]
},
{
"file": "Kahn_Model",
"def": "fires",
"old": "| f_select cs c k v q : code N p l = ASelect cs k -> In c cs -> nth_error (chan s) c = Some (v :: q) ->",
"new": "| f_select cs c k : code N p l = ASelect cs k -> In c cs ->",
"edit": "select does not wait for a message",
"breaks": [
"C88"
]
},
{
"file": "Kahn_Model",
"def": "rt_code",
"old": "ASend to_svc (MRCmd c) (LRt (RWait k))",
"new": "ASend to_svc (MRCmd c) (LRt (RSend (k RDone)))",
"edit": "the program does not wait for the answers",
"breaks": [
"C88"
]
},
{
"file": "Kahn_Model",
"def": "svc_code",
"old": "| STell r => ASend to_rt (MRResp r) (LSvc v SSelect)",
"new": "| STell r => ASend to_rt (MRResp r) (LSvc v (SProbe SPK))",
"edit": "the service looks for commands after it has told the runtime that the run is done",
"breaks": [
"C88"
]
},
{
"file": "Kahn_Model",
"def": "proc_code",
"old": "PSelect u => ASelect [to_proc p] (fun _ => LProc (PRecv u))",
"new": "PSelect u => AProbe (to_proc p) (fun b => LProc (if b then PRecv u else PEnd u))",
"edit": "a process looks for a command instead of waiting for it",
"breaks": [
"C88"
]
},
{
"file": "Kahn_Model",
"def": "svc_code",
"old": "SSelect => ASelect [to_svc] (fun _ => LSvc v SRecv)",
"new": "SSelect => AProbe to_svc (fun b => LSvc v (if b then SRecv else SEnd))",
"edit": "the service looks for a command instead of waiting for it",
"breaks": [
"C88"
]
},
{
"file": "Kahn_Model",
"def": "from_proc",
"old": "Definition from_proc (i : nat) : nat := nc W + 2 * i + 1.",
"new": "Definition from_proc (i : nat) : nat := nc W + 2 * i.",
"edit": "commands and responses share a channel",
"breaks": [
"C88"
]
},
{
"file": "Kahn_Model",
"def": "to_rt",
"old": "Definition to_rt : nat := nc W + 2 * np W + 1.",
"new": "Definition to_rt : nat := nc W + 2 * np W.",
"edit": "commands of the runtime and its answers share a channel",
"breaks": [
"C88"
]
},
{
"file": "Kahn_Model",
"def": "to_proc",
"old": "Definition to_proc (i : nat) : nat := nc W + 2 * i.",
"new": "Definition to_proc (i : nat) : nat := nc W.",
"edit": "all processes receive their commands from the same channel",
"breaks": [
"C88"
]
},
{
"file": "Kahn_Model",
"def": "rt_code",
"old": "RWait k => ARecv to_rt",
"new": "RWait k => APeek to_rt",
"edit": "the program leaves the answers in the channel",
"breaks": [
"C88"
]
},
{
"file": "Kahn_Model",
"def": "svc_code",
"old": "| SToldPause => ASend to_rt (MRResp RPaused) (LSvc v SSelect)",
"new": "| SToldPause => ASend to_rt (MRResp RPaused) (LSvc v (STell RDone))",
"edit": "the service answers a pause twice",
"breaks": [
"C88"
]
},
{
"file": "Kahn_Model",
"def": "proc_code",
"old": "| PReply r last u => ASend (from_proc p)",
"new": "| PReply r last u => ASend (from_proc 0)",
"edit": "all processes respond on the channel of process 0",
"breaks": [
"C88"
]
},
{
"file": "Kahn_Spec",
"def": "wired",
"old": "| ASend c _ _ => src c = p\n  | _ => True\n  end.\nDefinition reachable",
"new": "| ASend c _ _ => True\n  | _ => True\n  end.\nDefinition reachable",
"edit": "claimed for several senders on one channel",
"breaks": [
"C88"
]
},
{
"file": "Kahn_Spec",
"def": "wired",
"old": "| ARecv c _ | APeek c _ | AProbe c _ => dst c = p",
"new": "| ARecv c _ | APeek c _ | AProbe c _ => True",
"edit": "claimed for several receivers on one channel",
"breaks": [
"C88"
]
},
{
"file": "Kahn_Spec",
"def": "race_free",
"old": "| AProbe c _ => ~ live N s c",
"new": "| AProbe c _ => True",
"edit": "claimed for probing",
"breaks": [
"C88"
]
},
{
"file": "Kahn_Spec",
"def": "race_free",
"old": "-> live N s c -> live N s c' -> c = c'",
"new": "-> live N s c -> live N s c' -> True",
"edit": "claimed for selecting",
"breaks": [
"C88"
]
},
{
"file": "Kahn_Spec",
"def": "live",
"old": "chan_of s c <> [] \\/ sending N s c",
"new": "chan_of s c <> []",
"edit": "a message that is about to be sent is not seen as a race",
"breaks": [
"C88"
]
},
{
"file": "Kahn_Spec",
"def": "fair",
"old": "exists m, n <= m /\\ (sch m = p \\/ forall s', ~ step N (run m) p s')",
"new": "exists m, n <= m + p",
"edit": "claimed for unfair schedules",
"breaks": [
"C88"
]
},
{
"file": "Kahn_Spec",
"def": "no_requests",
"old": "forall p u, requested _ _ _ W p u = NoReq",
"new": "forall (p : nat) (u : U), p = p",
"edit": "claimed with requests of processes",
"breaks": [
"C88"
]
},
{
"file": "Kahn_Spec",
"def": "stuck",
"old": "forall p s', ~ step N s p s'",
"new": "forall s', ~ step N s 0 s'",
"edit": "claimed for states where only process 0 cannot proceed",
"breaks": [
"C88"
]
},
{
"file": "Kahn_Spec",
"def": "user_wired",
"old": "=> c < nc _ _ _ W /\\ udst c = p",
"new": "=> c < nc _ _ _ W",
"edit": "claimed for several receivers of user channels",
"breaks": [
"C88"
]
},
{
"file": "Kahn_Model",
"def": "svc_code",
"old": "| SProbe ph => AProbe to_svc (fun b => if b then",
"new": "| SProbe ph => AProbe to_svc (fun b => if negb b then",
"edit": "the service peeks when there is no message: it is blocked until the next command, which it then takes for one of the current run",
"breaks": [
"C88"
]
}
]