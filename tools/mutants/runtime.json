[
{
"file": "Runtime_Model",
"def": "handler",
"old": "| CLrn =>\n      Some (if raises o then RErr\n            else if q_pause o || q_stop o then pause_or_stop o\n            else if g_post o then RReqPost\n            else RDone)",
"new": "| CLrn =>\n      Some (if raises o then RErr\n            else if q_pause o || q_stop o then pause_or_stop o\n            else RDone)",
"edit": "_lrn never requests the post-management phase",
"breaks": [
"C09"
],
"tightened": [
"phases_from_guards"
]
},
{
"file": "Runtime_Model",
"def": "handler",
"old": "else if g_lrn o && g_pre o then RReqPre\n            else if g_lrn o then RReqLrn",
"new": "else if g_lrn o then RReqLrn",
"edit": "_spike never requests pre-management",
"breaks": [
"C09"
],
"tightened": [
"phases_from_guards"
]
},
{
"file": "Runtime_Model",
"def": "handler",
"old": "else RReqLrn)\n  | CLrn",
"new": "else RDone)\n  | CLrn",
"edit": "_pre_mgmt does not request learning",
"breaks": [
"C09"
]
},
{
"file": "Runtime_Model",
"def": "handler",
"old": "| CPost =>\n      Some (if raises o then RErr",
"new": "| CPost =>\n      Some (if raises o then RDone",
"edit": "an exception in _post_mgmt is swallowed",
"breaks": [
"C12"
],
"tightened": [
"exception_in_any_phase"
]
},
{
"file": "Runtime_Model",
"def": "handler",
"old": "| CStop => Some RTerm",
"new": "| CStop => Some RDone",
"edit": "_stop answers with STATUS_DONE",
"breaks": [
"C11"
]
},
{
"file": "Runtime_Model",
"def": "handler",
"old": "| CPause => Some RPaused",
"new": "| CPause => Some RDone",
"edit": "_pause answers with STATUS_DONE",
"breaks": [
"C10"
]
},
{
"file": "Runtime_Model",
"def": "handler",
"old": "| CHost => None",
"new": "| CHost => Some RDone",
"edit": "_host sends a response",
"breaks": [
"C07"
]
},
{
"file": "Runtime_Model",
"def": "note",
"old": "(fpre f || match r with RReqPre => true | _ => false end)",
"new": "(fpre f || match r with RReqLrn => true | _ => false end)",
"edit": "a learning request is noted as pre-management request",
"breaks": [
"C09"
]
},
{
"file": "Runtime_Model",
"def": "note",
"old": "(flrn f || match r with RReqLrn => true | _ => false end)",
"new": "(match r with RReqLrn => true | _ => false end)",
"edit": "only the last process's learning request counts",
"breaks": [
"C09"
]
},
{
"file": "Runtime_Model",
"def": "note",
"old": "(fpost f || match r with RReqPost => true | _ => false end)",
"new": "(fpost f)",
"edit": "post-management requests are ignored",
"breaks": [
"C09"
]
},
{
"file": "Runtime_Model",
"def": "note",
"old": "(err f || match r with RErr => true | _ => false end)",
"new": "(match r with RErr => true | _ => false end)",
"edit": "an error is forgotten when a later process answers",
"breaks": [
"C12"
]
},
{
"file": "Runtime_Model",
"def": "V_pre",
"old": "(set_svf s (VSend CPre 0) (clr_pre (set_last (cur s =? nn s) (fl s))))",
"new": "(set_svf s (VSend CPre 0) (set_last (cur s =? nn s) (fl s)))",
"edit": "req_pre_lrn_mgmt is not cleared",
"breaks": [
"C07",
"C09"
]
},
{
"file": "Runtime_Model",
"def": "V_lrn",
"old": "(set_svf s (VSend CLrn 0) (clr_lrn (set_last (cur s =? nn s) (fl s))))",
"new": "(set_svf s (VSend CLrn 0) (set_last (cur s =? nn s) (fl s)))",
"edit": "req_lrn is not cleared",
"breaks": [
"C07",
"C09"
]
},
{
"file": "Runtime_Model",
"def": "V_post",
"old": "(set_svf s (VSend CPost 0) (clr_post (set_last (cur s =? nn s) (fl s))))",
"new": "(set_svf s (VSend CPost 0) (set_last (cur s =? nn s) (fl s)))",
"edit": "req_post_lrn_mgmt is not cleared",
"breaks": [
"C07",
"C09"
]
},
{
"file": "Runtime_Model",
"def": "V_lrn",
"old": "| V_lrn s : sv s = VNext -> fpre (fl s) = false -> flrn (fl s) = true ->",
"new": "| V_lrn s : sv s = VNext -> flrn (fl s) = true ->",
"edit": "learning may run before pre-management",
"breaks": [
"C09"
]
},
{
"file": "Runtime_Model",
"def": "V_host",
"old": "cur s = nn s ->",
"new": "S (cur s) = nn s ->",
"edit": "a run ends one step early",
"breaks": [
"C07"
]
},
{
"file": "Runtime_Model",
"def": "V_spk",
"old": "(S (cur s)) (set_last false (fl s)))",
"new": "(S (S (cur s))) (set_last false (fl s)))",
"edit": "the step counter advances by two",
"breaks": [
"C07"
]
},
{
"file": "Runtime_Model",
"def": "V_start",
"old": "VNext n 0 (set_last false (fl s)))",
"new": "VNext n 1 (set_last false (fl s)))",
"edit": "the step counter starts at 1",
"breaks": [
"C07"
]
},
{
"file": "Runtime_Model",
"def": "V_send",
"old": "(fupd (s2p s) k (s2p s k ++ [c]))",
"new": "(fupd (s2p s) k (if k =? 0 then s2p s k ++ [c] else s2p s k))",
"edit": "a command is sent to the first process only",
"breaks": [
"C08"
]
},
{
"file": "Runtime_Model",
"def": "V_send",
"old": "(fupd (s2p s) k (s2p s k ++ [c]))",
"new": "(fupd (s2p s) k (s2p s k ++ [c; c]))",
"edit": "a command is sent twice",
"breaks": [
"C07",
"C08"
]
},
{
"file": "Runtime_Model",
"def": "V_sent",
"old": "| V_sent s c : sv s = VSend c N -> responding c = true ->\n      vstep s None (set_sv s (VRecv c 0))",
"new": "| V_sent s c : sv s = VSend c N -> responding c = true ->\n      vstep s None (set_sv s (VRecv c N))",
"edit": "the service does not wait for responses",
"breaks": [
"C08",
"C09",
"C11"
]
},
{
"file": "Runtime_Model",
"def": "V_sent",
"old": "| V_sent s c : sv s = VSend c N -> responding c = true ->\n      vstep s None (set_sv s (VRecv c 0))",
"new": "| V_sent s c : sv s = VSend c N -> responding c = true ->\n      vstep s None (set_sv s (VRecv c 1))",
"edit": "the service does not wait for the first process",
"breaks": [
"C08",
"C09",
"C11"
]
},
{
"file": "Runtime_Model",
"def": "V_stopped",
"old": "(say s [TERMINATED] VDead (fl s))",
"new": "(say s [TERMINATED] VIdle (fl s))",
"edit": "the service continues after STOP",
"breaks": [
"C11"
]
},
{
"file": "Runtime_Model",
"def": "V_stop",
"old": "(VSend CStop 0)",
"new": "(VSend CStop 1)",
"edit": "STOP is not sent to the first process",
"breaks": [
"C11"
]
},
{
"file": "Runtime_Model",
"def": "V_paused",
"old": "(say s [PAUSED] VIdle (fl s))",
"new": "(say s [] VIdle (fl s))",
"edit": "PAUSED is not sent",
"breaks": [
"C10"
]
},
{
"file": "Runtime_Model",
"def": "V_err",
"old": "| V_err s c : sv s = VChk c -> err (fl s) = true ->\n      vstep s (Some (EvResp ERROR)) (say s [ERROR] VErrB (fl s))",
"new": "| V_err s c : sv s = VChk c -> err (fl s) = true ->\n      vstep s (Some (EvResp DONE)) (say s [DONE] VErrB (fl s))",
"edit": "an error is reported as DONE",
"breaks": [
"C12"
]
},
{
"file": "Runtime_Model",
"def": "V_err_end",
"old": "| V_err_end s : sv s = VErr N -> vstep s None (set_sv s VDead)",
"new": "| V_err_end s : sv s = VErr N -> vstep s None (set_sv s VNext)",
"edit": "the service goes on after an error",
"breaks": [
"C12"
]
},
{
"file": "Runtime_Model",
"def": "V_ok",
"old": "| V_ok s c : sv s = VChk c -> err (fl s) = false ->",
"new": "| V_ok s c : sv s = VChk c ->",
"edit": "an error may be ignored",
"breaks": [
"C12"
]
},
{
"file": "Runtime_Model",
"def": "V_err_stop",
"old": "(fupd (s2p s) k (s2p s k ++ [CStop]))",
"new": "(s2p s)",
"edit": "processes are not stopped after an error",
"breaks": [
"C12"
]
},
{
"file": "Runtime_Model",
"def": "V_end_done",
"old": "(pausing (fl s) || stopping (fl s) || negb (last (fl s))) = false ->\n      vstep s (Some (EvResp DONE)) (say s [DONE] VIdle (fl s))",
"new": "(pausing (fl s) || stopping (fl s) || negb (last (fl s))) = false ->\n      vstep s (Some (EvResp DONE)) (say s [DONE; DONE] VIdle (fl s))",
"edit": "DONE is sent twice",
"breaks": [
"C07"
],
"tightened": [
"run_returns_complete",
"responses_fifo"
]
},
{
"file": "Runtime_Model",
"def": "V_end_quiet",
"old": "(pausing (fl s) || stopping (fl s) || negb (last (fl s))) = true ->",
"new": "True ->",
"edit": "DONE may be omitted at the end of a run",
"breaks": [
"C07"
]
},
{
"file": "Runtime_Model",
"def": "M_begin",
"old": "(match c with CSpk => S (ts s i) | _ => ts s i end)",
"new": "(match c with CSpk | CHost => S (ts s i) | _ => ts s i end)",
"edit": "time_step is also incremented in the HOST phase",
"breaks": [
"C07",
"C08"
]
},
{
"file": "Runtime_Model",
"def": "M_end",
"old": "(match handler c o with Some RErr | Some RTerm => MDead | _ => MIdle end)",
"new": "(match handler c o with Some RErr => MDead | _ => MIdle end)",
"edit": "a process goes on after STOP",
"breaks": [
"C11"
]
},
{
"file": "Runtime_Model",
"def": "M_end",
"old": "(match handler c o with Some RErr | Some RTerm => MDead | _ => MIdle end)",
"new": "(match handler c o with Some RTerm => MDead | _ => MIdle end)",
"edit": "a process goes on after an exception",
"breaks": [
"C12"
]
},
{
"file": "Runtime_Model",
"def": "peeked",
"old": "(err f) true (stopping f) (last f) (bad f)",
"new": "(err f) (pausing f) (stopping f) (last f) (bad f)",
"edit": "a pause request does not set pausing",
"breaks": [
"C10"
]
},
{
"file": "Runtime_Model",
"def": "V_req_pause",
"old": "(clr_pause (set_last (cur s =? nn s) (fl s))))\n  (* l.336-341 *)",
"new": "(set_last (cur s =? nn s) (fl s)))\n  (* l.336-341 *)",
"edit": "req_pause is not cleared",
"breaks": [
"C10"
]
}
]