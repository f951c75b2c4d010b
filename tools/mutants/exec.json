[
{
"file": "Exec_Model",
"def": "transform",
"old": "Some w => compose (w_tf w) d",
"new": "Some w => d",
"edit": "virtual ports ignored",
"breaks": [
"C81"
]
},
{
"file": "Exec_Model",
"def": "in_chans",
"old": "eqp (w_dst w) (i, q)",
"new": "eqp (w_src w) (i, q)",
"edit": "InPorts listen to the channels of OutPorts",
"breaks": [
"C81"
]
},
{
"file": "Exec_Model",
"def": "msgs",
"old": "map (fun c => (c, snd pv)) (out_chans i (fst pv))",
"new": "map (fun c => (c, snd pv)) (firstn 1 (out_chans i (fst pv)))",
"edit": "send() serves only the first connection",
"breaks": [
"C81"
]
},
{
"file": "Exec_Model",
"def": "enter",
"old": "PRecv dn (repeat 0%Z size) (in_chans i q) r s",
"new": "PRecv dn (last dn (repeat 0%Z size)) (in_chans i q) r s",
"edit": "sum continues from the previous InPort",
"breaks": [
"C81"
]
},
{
"file": "Exec_Model",
"def": "pact",
"old": "vadd acc (transform c d)) cur todo s)",
"new": "transform c d) cur todo s)",
"edit": "last message instead of the sum",
"breaks": [
"C81"
]
},
{
"file": "Exec_Model",
"def": "pact",
"old": "enter i m (dn ++ [acc]) todo s",
"new": "enter i m (acc :: dn) todo s",
"edit": "inputs in reverse order",
"breaks": [
"C81"
]
},
{
"file": "Exec_Model",
"def": "begin_step",
"old": "PEarly (msgs i (early m) (early_vals m s)) s",
"new": "PEarly [] s",
"edit": "buffered sends forgotten",
"breaks": [
"C81"
]
},
{
"file": "Exec_Model",
"def": "enter",
"old": "PLate (msgs i (late m) vs) s'",
"new": "PLate (msgs i (late m) vs) s",
"edit": "variables not updated",
"breaks": [
"C81"
]
},
{
"file": "Exec_Model",
"def": "ESnd",
"old": "(upd (chans x) c (q ++ [v]))",
"new": "(upd (chans x) c (v :: q))",
"edit": "channel is a stack",
"breaks": [
"C81"
]
},
{
"file": "Exec_Model",
"def": "ESnd",
"old": "(upd (chans x) c (q ++ [v]))",
"new": "(upd (chans x) c [v])",
"edit": "send overwrites the pending message",
"breaks": [
"C81"
]
},
{
"file": "Exec_Model",
"def": "ERcv",
"old": "(mkComp k (f v))) (upd (chans x) c q)",
"new": "(mkComp k (f v))) (upd (chans x) c (v :: q))",
"edit": "message not removed from the channel",
"breaks": [
"C81"
]
},
{
"file": "Exec_Model",
"def": "EStart",
"old": "k < nsteps ->",
"new": "k <= nsteps ->",
"edit": "one step too many",
"breaks": [
"C81"
]
},
{
"file": "Exec_Model",
"def": "in_ports",
"old": "combine (seq 0 (length (ins m))) (ins m)",
"new": "combine (seq 1 (length (ins m))) (ins m)",
"edit": "InPort index off by one",
"breaks": [
"C81"
]
},
{
"file": "Exec_Layers",
"def": "dense_proc",
"old": "mkModel [0] (fun s => match s with VDense _ _ b => [b] | _ => [[]] end) [size] []\n    (fun s xs => match s, xs with VDense bits w b, [x] => (VDense bits w (snd (Conn_Model.dense_step bits w b x)), []) | _, _ => (s, []) end)",
"new": "mkModel [] (fun _ => []) [size] [0]\n    (fun s xs => match s, xs with VDense bits w b, [x] => (VDense bits w (snd (Conn_Model.dense_step bits w b x)), [snd (Conn_Model.dense_step bits w b x)]) | _, _ => (s, [[]]) end)",
"edit": "Dense receives before it sends",
"breaks": [
"C81"
]
},
{
"file": "Exec_Layers",
"def": "sink_proc",
"old": "VSink (S t) (Io_Model.sink_recv t data x)",
"new": "VSink t (Io_Model.sink_recv t data x)",
"edit": "time step of the sink stands still",
"breaks": [
"C81"
]
},
{
"file": "Exec_Layers",
"def": "lif_layer",
"old": "if snd (Lif_Model.run_spk P (fst x) (snd x)) then 1%Z else 0%Z",
"new": "if snd (Lif_Model.run_spk P (fst x) (snd x)) then 0%Z else 1%Z",
"edit": "spikes inverted",
"breaks": [
"C81"
]
}
]