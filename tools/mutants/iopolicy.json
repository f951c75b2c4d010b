[
{
"file": "IoPolicy_Model",
"def": "u_offer",
"old": "match ps with SBlocking => USend d | SDrop => UProbe d end",
"new": "match ps with SBlocking => UProbe d | SDrop => UProbe d end",
"edit": "blocking send may drop",
"breaks": [
"C46"
]
},
{
"file": "IoPolicy_Model",
"def": "u_offer",
"old": "match ps with SBlocking => USend d | SDrop => UProbe d end",
"new": "USend d",
"edit": "drop policy blocks",
"breaks": [
"C46"
]
},
{
"file": "IoPolicy_Model",
"def": "u_probe_no",
"old": "(Some (Dropped d)) (mkc s' UIdle r)",
"new": "(Some (Accepted d)) (mkc s' UIdle r)",
"edit": "drop is not reported",
"breaks": [
"C46"
]
},
{
"file": "IoPolicy_Model",
"def": "after_qsize",
"old": "EZeros => (Some (Received zero), PIdle)",
"new": "EZeros => (None, PNext 1 None)",
"edit": "zeros policy blocks",
"breaks": [
"C46"
]
},
{
"file": "IoPolicy_Model",
"def": "after_qsize",
"old": "Accumulate => (None, PNext n (Some zero))",
"new": "Accumulate => (None, PNext 1 (Some zero))",
"edit": "accumulate takes one message",
"breaks": [
"C46"
],
"tightened": [
"policy_lossless"
]
},
{
"file": "IoPolicy_Model",
"def": "after_qsize",
"old": "match pn with Fifo => (None, PNext 1 None)",
"new": "match pn with Fifo => (None, PNext n None)",
"edit": "fifo takes all messages",
"breaks": [
"C46"
]
},
{
"file": "IoPolicy_Model",
"def": "after_qsize",
"old": "EBlocking => (None, PNext 1 None) end\n",
"new": "EBlocking => (Some (Received zero), PIdle) end\n",
"edit": "blocking receive returns zeros",
"breaks": [
"C46"
]
},
{
"file": "IoPolicy_Model",
"def": "plus",
"old": "Some a => add a v",
"new": "Some a => v",
"edit": "accumulate keeps the last",
"breaks": [
"C46"
]
},
{
"file": "IoPolicy_Model",
"def": "v_more",
"old": "(PNext (S k) (Some (plus acc v)))",
"new": "(PNext (S k) acc)",
"edit": "accumulation lost",
"breaks": [
"C46"
]
},
{
"file": "IoPolicy_Model",
"def": "u_probe_yes",
"old": "(mkc s' (USend d) r)",
"new": "(mkc s' (UProbe d) r)",
"edit": "never sends after a successful probe",
"breaks": [
"C46"
]
}
]