[
{
"file": "Channel_Model",
"def": "S_inc",
"old": "(mk c e f g ((h + 1) mod size) i sl SInc r q a sd rd cr)",
"new": "(mk c e f g (if h + 1 =? size then 1 mod size else h + 1) i sl SInc r q a sd rd cr)",
"edit": "the send index wraps to 1 instead of 0",
"breaks": [
"C01"
]
},
{
"file": "Channel_Model",
"def": "S_inc",
"old": "(mk c e f g ((h + 1) mod size) i sl SInc r q a sd rd cr)",
"new": "(mk c e f g h i sl SInc r q a sd rd cr)",
"edit": "the send index is never advanced",
"breaks": [
"C01"
]
},
{
"file": "Channel_Model",
"def": "R_inc",
"old": "(mk c e f g h ((i + 1) mod size) sl s (RInced v) q a sd rd cr)",
"new": "(mk c e f g h ((i + 1) mod (S size)) sl s (RInced v) q a sd rd cr)",
"edit": "the receive index wraps at size + 1",
"breaks": [
"C01"
]
},
{
"file": "Channel_Model",
"def": "S_acquire",
"old": "sstep (mk (S c) e f g h i sl (SWait d) r q a sd rd cr) None\n            (mk c e f g h i sl (SAcq d) r q a sd rd cr)",
"new": "sstep (mk (S c) e f g h i sl (SWait d) r q a sd rd cr) None\n            (mk (S c) e f g h i sl (SAcq d) r q a sd rd cr)",
"edit": "send does not take a slot of the semaphore",
"breaks": [
"C01",
"C02"
]
},
{
"file": "Channel_Model",
"def": "S_write",
"old": "(mk c e f g h i (upd sl h (Some d)) SWrote r q a sd rd cr)",
"new": "(mk c e f g h i sl SWrote r q a sd rd cr)",
"edit": "send does not write the slot",
"breaks": [
"C01"
]
},
{
"file": "Channel_Model",
"def": "S_write",
"old": "sstep (mk c e f g h i sl (SAcq d) r q a sd rd cr) None\n            (mk c e f g h i (upd sl h (Some d)) SWrote r q a sd rd cr)",
"new": "sstep (mk c e f g h i sl (SAcq d) r q a sd rd cr) None\n            (mk c (S e) f g h i (upd sl h (Some d)) SWrote r q a sd rd cr)",
"edit": "req is released twice per send (also at the write)",
"breaks": [
"C01",
"C02"
]
},
{
"file": "Channel_Model",
"def": "S_release",
"old": "(mk c (S e) f g h i sl SIdle r q a sd rd cr)",
"new": "(mk c e f g h i sl SIdle r q a sd rd cr)",
"edit": "send forgets to release req",
"breaks": [
"C03"
]
},
{
"file": "Channel_Model",
"def": "S_probe_rel",
"old": "(if c <? size then mk (S c) e f g h i sl SIdle r q a sd rd cr\n             else mk c e f g h i sl SIdle r q a sd rd (Some SemaphoreOverRelease))",
"new": "(mk c e f g h i sl SIdle r q a sd rd cr)",
"edit": "CspSendPort.probe does not give the slot back",
"breaks": [
"C03",
"C04"
]
},
{
"file": "Channel_Model",
"def": "S_probe_fail",
"old": "(Some (EvSendProbe false))",
"new": "(Some (EvSendProbe true))",
"edit": "CspSendPort.probe returns True when the channel is full",
"breaks": [
"C04"
]
},
{
"file": "Channel_Model",
"def": "R_ack",
"old": "rstep (mk c e f g h i sl s (RInced v) q a sd rd cr) (Some (EvRecvRet (Some v)))\n            (mk c e (S f) g h i sl s RIdle q a sd rd cr)",
"new": "rstep (mk c e f g h i sl s (RInced v) q a sd rd cr) (Some (EvRecvRet (Some v)))\n            (mk c e f g h i sl s RIdle q a sd rd cr)",
"edit": "recv forgets to release ack",
"breaks": [
"C03"
]
},
{
"file": "Channel_Model",
"def": "R_ack",
"old": "rstep (mk c e f g h i sl s (RCopied v) q a sd rd cr) None\n            (mk c e f g h ((i + 1) mod size) sl s (RInced v) q a sd rd cr)",
"new": "rstep (mk c e f g h i sl s (RCopied v) q a sd rd cr) None\n            (mk c e (S f) g h ((i + 1) mod size) sl s (RInced v) q a sd rd cr)",
"edit": "recv releases ack twice",
"breaks": [
"C01",
"C02"
]
},
{
"file": "Channel_Model",
"def": "R_get",
"old": "rstep (mk c e f (S g) h i sl s RWait q a sd rd cr) None\n            (mk c e f g h i sl s RGot q a sd rd cr)",
"new": "rstep (mk c e f (S g) h i sl s RWait q a sd rd cr) None\n            (mk c e f (S g) h i sl s RGot q a sd rd cr)",
"edit": "recv does not remove the queue item",
"breaks": [
"C01",
"C02"
]
},
{
"file": "Channel_Model",
"def": "P_get",
"old": "rstep (mk c e f (S g) h i sl s PWait q a sd rd cr) None\n            (mk c e f (S g) h i sl s PGot q a sd rd cr)",
"new": "rstep (mk c e f (S g) h i sl s PWait q a sd rd cr) None\n            (mk c e f g h i sl s PGot q a sd rd cr)",
"edit": "peek removes the queue item",
"breaks": [
"C03",
"C04"
]
},
{
"file": "Channel_Model",
"def": "P_get",
"old": "rstep (mk c e f (S g) h i sl s PWait q a sd rd cr) None\n            (mk c e f (S g) h i sl s PGot q a sd rd cr)",
"new": "rstep (mk c e f g h i sl s PWait q a sd rd cr) None\n            (mk c e f g h i sl s PGot q a sd rd cr)",
"edit": "peek does not wait for a queue item",
"breaks": [
"C04"
]
},
{
"file": "Channel_Model",
"def": "P_copy",
"old": "(Some (EvPeekRet (sl i)))",
"new": "(Some (EvPeekRet (sl h)))",
"edit": "peek reads the slot at the sender's index",
"breaks": [
"C04"
]
},
{
"file": "Channel_Model",
"def": "R_probe",
"old": "(Some (EvRecvProbe (0 <? g)))",
"new": "(Some (EvRecvProbe (1 <? g)))",
"edit": "CspRecvPort.probe is True only with two items",
"breaks": [
"C04"
]
},
{
"file": "Channel_Model",
"def": "R_probe",
"old": "(Some (EvRecvProbe (0 <? g)))",
"new": "(Some (EvRecvProbe (0 <? e + g)))",
"edit": "CspRecvPort.probe also counts tokens of req",
"breaks": [
"C04"
]
},
{
"file": "Channel_Model",
"def": "Q_acquire",
"old": "qstep (mk c (S e) f g h i sl s r QWait a sd rd cr)",
"new": "qstep (mk c e f g h i sl s r QWait a sd rd cr)",
"edit": "_req_callback does not wait for req",
"breaks": [
"C01",
"C02"
]
},
{
"file": "Channel_Model",
"def": "Q_check",
"old": "(mk c e f g h i sl s r (if rd then QDead else QRun) a sd rd cr)",
"new": "(mk c e f g h i sl s r QRun a sd rd cr)",
"edit": "_req_callback ignores _done",
"breaks": [
"C06"
]
},
{
"file": "Channel_Model",
"def": "Q_check",
"old": "(mk c e f g h i sl s r (if rd then QDead else QRun) a sd rd cr)",
"new": "(mk c e f g h i sl s r (if sd then QDead else QRun) a sd rd cr)",
"edit": "_req_callback of the receiver tests the sender's _done",
"breaks": [
"C06"
]
},
{
"file": "Channel_Model",
"def": "Q_put",
"old": "(if g <? size then mk c e f (S g) h i sl s r QWait a sd rd cr",
"new": "(if S g <? size then mk c e f (S g) h i sl s r QWait a sd rd cr",
"edit": "the queue is created one item too small",
"breaks": [
"C02",
"C03"
]
},
{
"file": "Channel_Model",
"def": "Q_put",
"old": "(if g <? size then mk c e f (S g) h i sl s r QWait a sd rd cr\n             else mk c e f g h i sl s r QDead a sd rd (Some QueueFull)).",
"new": "(if b then mk c e f g h i sl s r QWait a sd rd cr else if g <? size then mk c e f (S g) h i sl s r QWait a sd rd cr\n             else mk c e f g h i sl s r QDead a sd rd (Some QueueFull)).",
"edit": "_req_callback puts a token only if the queue was empty",
"breaks": [
"C03",
"C04"
]
},
{
"file": "Channel_Model",
"def": "A_check",
"old": "(mk c e f g h i sl s r q (if sd then ADead else ARun) sd rd cr)",
"new": "(mk c e f g h i sl s r q ARun sd rd cr)",
"edit": "_ack_callback ignores _done",
"breaks": [
"C06"
]
},
{
"file": "Channel_Model",
"def": "A_probe_rel",
"old": "(if c <? size then mk (S c) e f g h i sl s r q (AProbed true) sd rd cr",
"new": "(if c <? size then mk c e f g h i sl s r q (AProbed true) sd rd cr",
"edit": "the probe in _ack_callback keeps the slot",
"breaks": [
"C03"
]
},
{
"file": "Channel_Model",
"def": "A_release",
"old": "(if c <? size then mk (S c) e f g h i sl s r q AWait sd rd cr",
"new": "(if c <? size then mk (S c) e f g h i sl s r q (if b then AWait else ADead) sd rd cr",
"edit": "_ack_callback ends when the channel was full",
"breaks": [
"C03"
]
},
{
"file": "Channel_Model",
"def": "A_acquire",
"old": "astep (mk c e (S f) g h i sl s r q AWait sd rd cr)",
"new": "astep (mk c e f g h i sl s r q AWait sd rd cr)",
"edit": "_ack_callback does not wait for ack",
"breaks": [
"C02"
]
},
{
"file": "Channel_Model",
"def": "S_join",
"old": "(mk c e (S f) g h i sl SIdle r q a true rd cr)",
"new": "(mk c e f g h i sl SIdle r q a true rd cr)",
"edit": "CspSendPort.join does not wake its thread",
"breaks": [
"C06"
]
},
{
"file": "Channel_Model",
"def": "R_join",
"old": "(mk c (S e) f g h i sl s RIdle q a sd true cr)",
"new": "(mk c (S e) f 0 h i sl s RIdle q a sd true cr)",
"edit": "CspRecvPort.join empties the queue",
"breaks": [
"C06"
]
},
{
"file": "Channel_Model",
"def": "R_join",
"old": "(mk c (S e) f g h i sl s RIdle q a sd true cr)",
"new": "(mk c e f g h i sl s RIdle q a sd true cr)",
"edit": "CspRecvPort.join does not wake its thread",
"breaks": [
"C06"
]
},
{
"file": "Channel_Model",
"def": "S_join",
"old": "(mk c e (S f) g h i sl SIdle r q a true rd cr)",
"new": "(mk c 0 (S f) g h i sl SIdle r q a true rd cr)",
"edit": "CspSendPort.join drops the tokens in flight",
"breaks": [
"C06"
]
},
{
"file": "Channel_Model",
"def": "S_join_again",
"old": "sstep (mk c e f g h i sl SIdle r q a true rd cr) (Some EvSendJoin)\n            (mk c e f g h i sl SIdle r q a true rd cr)",
"new": "sstep (mk c e f g h i sl SIdle r q a true rd cr) (Some EvSendJoin)\n            (mk c (S e) f g h i sl SIdle r q a true rd cr)",
"edit": "a second join of the send port releases req",
"breaks": [
"C06"
]
},
{
"file": "Channel_Model",
"def": "init",
"old": "mk size 0 0 0 0 0 (fun _ => None)",
"new": "mk (S size) 0 0 0 0 0 (fun _ => None)",
"edit": "the send semaphore has one slot too many",
"breaks": [
"C01",
"C02"
]
},
{
"file": "Channel_Model",
"def": "init",
"old": "mk size 0 0 0 0 0 (fun _ => None)",
"new": "mk size 1 0 0 0 0 (fun _ => None)",
"edit": "req starts at 1",
"breaks": [
"C01",
"C04"
]
},
{
"file": "Channel_Model",
"def": "S_call",
"old": "shape_ok d = true ->",
"new": "",
"edit": "send accepts arrays of any shape",
"breaks": [
"C01"
],
"tightened": [
"chan_shape_checked"
]
}
]