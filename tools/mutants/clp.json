[
{
"file": "Clp_Model",
"def": "nd_step",
"old": "if negb (a_in =? 0) then (true, 0, novelty_detected st)",
"new": "if negb (a_in =? 0) then (true, t_passed st, novelty_detected st)",
"edit": "timer not restarted",
"breaks": [
"C50"
]
},
{
"file": "Clp_Model",
"def": "nd_step",
"old": "if t_wait <? t then (false, 0, true)",
"new": "if t_wait <=? t then (false, 0, true)",
"edit": "one step early",
"breaks": [
"C50"
]
},
{
"file": "Clp_Model",
"def": "nd_step",
"old": "if negb (a_out =? 0) then (false, 0, n)",
"new": "if negb (a_out =? 0) then (w, 0, n)",
"edit": "recognition does not stop the wait",
"breaks": [
"C50"
]
},
{
"file": "Clp_Model",
"def": "nd_step",
"old": "novelty_detected := false |}, 1)",
"new": "novelty_detected := true |}, 1)",
"edit": "fires for ever",
"breaks": [
"C50"
]
},
{
"file": "Clp_Model",
"def": "nd_step",
"old": "let t := if w : bool then t + 1 else t in",
"new": "let t := t + 1 in",
"edit": "timer runs while idle",
"breaks": [
"C50"
]
},
{
"file": "Clp_Model",
"def": "alloc_step",
"old": "(w32 (next + 1), next)",
"new": "(w32 (next + 1), w32 (next + 1))",
"edit": "first id skipped",
"breaks": [
"C51"
]
},
{
"file": "Clp_Model",
"def": "alloc_step",
"old": "(w32 (next + 1), next)",
"new": "(next, next)",
"edit": "id not advanced",
"breaks": [
"C51"
]
},
{
"file": "Clp_Model",
"def": "alloc_step",
"old": "if trigger =? 0 then (next, 0)",
"new": "if trigger <=? 0 then (next, 0)",
"edit": "negative trigger ignored",
"breaks": [
"C51"
]
},
{
"file": "Clp_Model",
"def": "first_active",
"old": "then Some 0%nat else option_map S (first_active r)",
"new": "then Some 0%nat else first_active r",
"edit": "winner index",
"breaks": [
"C52"
],
"tightened": [
"winner_is_last_first_active"
]
},
{
"file": "Clp_Model",
"def": "readout_step",
"old": "-1 * (Z.of_nat w + 1)), w, -1 * (Z.of_nat w + 1))",
"new": "-1 * Z.of_nat w), w, -1 * Z.of_nat w)",
"edit": "pseudo label off by one",
"breaks": [
"C52"
]
},
{
"file": "Clp_Model",
"def": "readout_step",
"old": "if l =? user_label then (labels, inferred, 1, false) else (labels, inferred, -1, true)",
"new": "if l =? user_label then (labels, inferred, 1, false) else (upd labels last user_label, inferred, -1, true)",
"edit": "true label overwritten",
"breaks": [
"C52"
]
},
{
"file": "Clp_Model",
"def": "readout_step",
"old": "else (labels, inferred, -1, true)",
"new": "else (labels, inferred, -1, false)",
"edit": "no allocation triggered",
"breaks": [
"C52"
]
},
{
"file": "Clp_Model",
"def": "readout_step",
"old": "(upd labels last user_label, user_label, 0, false)",
"new": "(labels, user_label, 0, false)",
"edit": "pseudo label kept",
"breaks": [
"C52"
]
},
{
"file": "Clp_Model",
"def": "readout_step",
"old": "| None => (proto_labels st, last_winner_id st, 0)",
"new": "| None => (proto_labels st, 0%nat, 0)",
"edit": "last winner forgotten",
"breaks": [
"C52"
]
},
{
"file": "Clp_Model",
"def": "spiker_step",
"old": "if counter =? rate then (1, payload)",
"new": "if counter =? rate then (0, payload)",
"edit": "period one longer",
"breaks": [
"C53"
]
},
{
"file": "Clp_Model",
"def": "spiker_step",
"old": "else (counter + 1, 0)",
"new": "else (counter + 1, payload)",
"edit": "sends all the time",
"breaks": [
"C53"
]
}
]