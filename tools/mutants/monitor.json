[
{
"file": "Monitor_Model",
"def": "record",
"old": "mkMon (S (m_step m)) (set_row (m_step m) x",
"new": "mkMon (S (m_step m)) (set_row (S (m_step m)) x",
"edit": "row t instead of t-1",
"breaks": [
"C82"
]
},
{
"file": "Monitor_Model",
"def": "record",
"old": "m_step m <? length",
"new": "m_step m <=? length",
"edit": "one row too many accepted",
"breaks": [
"C82"
]
},
{
"file": "Monitor_Model",
"def": "set_row",
"old": "y :: set_row j x r",
"new": "x :: set_row j x r",
"edit": "all rows overwritten",
"breaks": [
"C82"
]
},
{
"file": "Monitor_Model",
"def": "fresh_mon",
"old": "repeat (repeat 0%Z size) num_steps",
"new": "repeat (repeat 0%Z size) (S num_steps)",
"edit": "num_steps + 1 rows",
"breaks": [
"C82"
]
},
{
"file": "Monitor_Model",
"def": "mon_wires",
"old": "(p_proc (snd jp), p_port (snd jp))",
"new": "(p_proc (snd jp), 0)",
"edit": "always the first OutPort",
"breaks": [
"C82"
]
},
{
"file": "Monitor_Model",
"def": "lift",
"old": "let (s', vs) := body m s xs in (inl s', vs)",
"new": "let (s', vs) := body m s xs in (inl s, vs)",
"edit": "probed process does not advance",
"breaks": [
"C82"
]
},
{
"file": "Monitor_Model",
"def": "expose",
"old": "vs ++ [var s']",
"new": "vs ++ [var s]",
"edit": "Var read before the step",
"breaks": [
"C82"
]
},
{
"file": "Monitor_Model",
"def": "do_probe",
"old": "TOut => (m' (n_ref m) (S (n_in m)), true)",
"new": "TOut => (m' (S (n_ref m)) (n_in m), true)",
"edit": "counter of the other kind",
"breaks": [
"C82"
]
},
{
"file": "Monitor_Model",
"def": "do_probe",
"old": "(lref m ++ [RefPortN 0]) (lv1 m ++ [VarReadN 0])",
"new": "(lref m ++ [RefPortN 0]) (lv1 m ++ [OutReadN 0])",
"edit": "Var recorded into the array of the OutPort",
"breaks": [
"C82"
]
},
{
"file": "Monitor_Model",
"def": "declared",
"old": "k =? 0 end",
"new": "k <=? 1 end",
"edit": "model declares two of each",
"breaks": [
"C82"
]
}
]