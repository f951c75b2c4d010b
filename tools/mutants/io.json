[
{
"file": "Io_Model",
"def": "source_send",
"old": "nth ((t - 1) mod length data) data d",
"new": "nth (t mod length data) data d",
"edit": "source one step ahead",
"breaks": [
"C43"
]
},
{
"file": "Io_Model",
"def": "source_send",
"old": "nth ((t - 1) mod length data) data d",
"new": "nth (t - 1) data d",
"edit": "source does not wrap around",
"breaks": [
"C43"
]
},
{
"file": "Io_Model",
"def": "sink_recv",
"old": "put ((t - 1) mod length buf) x buf",
"new": "put (t mod length buf) x buf",
"edit": "sink one position off",
"breaks": [
"C43"
]
},
{
"file": "Io_Model",
"def": "sink_recv",
"old": "put ((t - 1) mod length buf) x buf",
"new": "put (t - 1) x buf",
"edit": "sink does not wrap",
"breaks": [
"C43"
]
},
{
"file": "Io_Model",
"def": "read_step",
"old": "if (t - 1) mod interval =? offset mod interval\n  then mkRead",
"new": "if t mod interval =? offset mod interval\n  then mkRead",
"edit": "sampled one step early",
"breaks": [
"C44"
]
},
{
"file": "Io_Model",
"def": "read_step",
"old": "(S (rd_counter s))",
"new": "(rd_counter s)",
"edit": "counter not advanced",
"breaks": [
"C44"
]
},
{
"file": "Io_Model",
"def": "read_step",
"old": "put (rd_counter s mod length (rd_data s)) v",
"new": "put (rd_counter s) v",
"edit": "no wrap around",
"breaks": [
"C44"
]
},
{
"file": "Io_Model",
"def": "sload_step",
"old": "mkSload (if S (sl_id s) =? length ds then 0 else S (sl_id s)) g x",
"new": "mkSload (S (sl_id s)) g x",
"edit": "sample id does not wrap",
"breaks": [
"C45"
]
},
{
"file": "Io_Model",
"def": "sload_step",
"old": "if (t - 1) mod interval =? offset mod interval\n   then match nth_error ds (sl_id s)",
"new": "if t mod interval =? offset mod interval\n   then match nth_error ds (sl_id s)",
"edit": "loaded one step early",
"breaks": [
"C45"
]
},
{
"file": "Io_Model",
"def": "sload_step",
"old": "mkSload (if S (sl_id s) =? length ds then 0 else S (sl_id s)) g x",
"new": "mkSload (if S (sl_id s) =? length ds then 0 else S (sl_id s)) (sl_gt s) x",
"edit": "ground truth not updated",
"breaks": [
"C45"
]
},
{
"file": "Io_Model",
"def": "sload_step",
"old": "(sl_gt s,\n",
"new": "(match nth_error ds (sl_id s) with Some (_, g) => g | None => sl_gt s end,\n",
"edit": "ground truth of the next sample is sent",
"breaks": [
"C45"
]
},
{
"file": "Io_Model",
"def": "pad",
"old": "if interval <=? length x then firstn interval x else x ++ repeat zero (interval - length x)",
"new": "if interval <=? length x then x else x ++ repeat zero (interval - length x)",
"edit": "long samples not cut",
"breaks": [
"C45"
]
},
{
"file": "Io_Model",
"def": "pad",
"old": "x ++ repeat zero (interval - length x)",
"new": "repeat zero (interval - length x) ++ x",
"edit": "padded at the front",
"breaks": [
"C45"
]
},
{
"file": "Io_Model",
"def": "pload_step",
"old": "g (pad zero interval x) 0",
"new": "g (pad zero interval x) (S (pl_time s))",
"edit": "sample time not reset",
"breaks": [
"C45"
]
},
{
"file": "Io_Model",
"def": "pload_step",
"old": "(pl_gt s) (pl_data s) (S (pl_time s)) in",
"new": "(pl_gt s) (pl_data s) (pl_time s) in",
"edit": "sample time not advanced",
"breaks": [
"C45"
]
},
{
"file": "Io_Model",
"def": "pload_step",
"old": "mkPload (if S (pl_id s1) =? length ds then 0 else S (pl_id s1)) g",
"new": "mkPload (if S (pl_id s1) =? length ds then 1 else S (pl_id s1)) g",
"edit": "wraps to the second sample",
"breaks": [
"C45"
]
}
]