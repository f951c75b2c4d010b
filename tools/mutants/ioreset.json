[
 {
  "file": "IoReset_Model",
  "def": "create",
  "old": "| Resetter r i o => if (i =? 0)%Z then None else Some (HReset (trunc r) i (o mod i)%Z)",
  "new": "| Resetter r i o => if (i =? 0)%Z then None else Some (HReset (trunc r) i o)",
  "edit": "offset of Reset not reduced modulo interval",
  "breaks": [
   "C96"
  ]
 },
 {
  "file": "IoReset_Model",
  "def": "create",
  "old": "| Reader i o => if (i =? 0)%Z then None else Some (HRead i (o mod i)%Z)",
  "new": "| Reader i o => if (i =? 0)%Z then None else Some (HRead i o)",
  "edit": "offset of Read not reduced modulo interval",
  "breaks": [
   "C96"
  ]
 },
 {
  "file": "IoReset_Model",
  "def": "create",
  "old": "| Resetter r i o => if (i =? 0)%Z then None",
  "new": "| Resetter r i o => if (i <=? 1)%Z then None",
  "edit": "interval 1 refused",
  "breaks": [
   "C96"
  ]
 },
 {
  "file": "IoReset_Model",
  "def": "create",
  "old": "| Reader i o => if (i =? 0)%Z then None else",
  "new": "| Reader i o => if false then None else",
  "edit": "interval 0 accepted by Read",
  "breaks": [
   "C96"
  ]
 },
 {
  "file": "IoReset_Model",
  "def": "create",
  "old": "HReset (trunc r) i",
  "new": "HReset (Qnum r) i",
  "edit": "reset value scaled",
  "breaks": [
   "C96"
  ]
 },
 {
  "file": "IoReset_Model",
  "def": "create",
  "old": "HReset (trunc r) i",
  "new": "HReset (trunc r + 1) i",
  "edit": "reset value off by one",
  "breaks": [
   "C96"
  ]
 },
 {
  "file": "IoReset_Model",
  "def": "post_guard",
  "old": "((time_step - 1) mod i =? o)%Z",
  "new": "(time_step mod i =? o)%Z",
  "edit": "guard counts steps from 0",
  "breaks": [
   "C96"
  ]
 },
 {
  "file": "IoReset_Model",
  "def": "post_guard",
  "old": "((time_step - 1) mod i =? o)%Z",
  "new": "((time_step - 1) mod i <=? o)%Z",
  "edit": "guard: all steps up to the offset",
  "breaks": [
   "C96"
  ]
 },
 {
  "file": "IoReset_Model",
  "def": "post_guard",
  "old": "((time_step - 1) mod i =? o)%Z",
  "new": "((time_step - 1) mod i =? i - 1 - o)%Z",
  "edit": "offset counted from the end",
  "breaks": [
   "C96"
  ]
 },
 {
  "file": "IoReset_Model",
  "def": "run_post_mgmt",
  "old": "[Write (map (fun z => z + inject_Z r)%Q (repeat 0%Q n)); Read]",
  "new": "[Write (map (fun z => z + inject_Z r)%Q (repeat 0%Q n))]",
  "edit": "Reset does not wait for its write",
  "breaks": [
   "C96"
  ]
 },
 {
  "file": "IoReset_Model",
  "def": "run_post_mgmt",
  "old": "[Write (map (fun z => z + inject_Z r)%Q (repeat 0%Q n)); Read]",
  "new": "[Read; Read]",
  "edit": "Reset writes nothing",
  "breaks": [
   "C96"
  ]
 },
 {
  "file": "IoReset_Model",
  "def": "run_post_mgmt",
  "old": "(repeat 0%Q n)",
  "new": "(repeat 0%Q (Nat.min 1 n))",
  "edit": "Reset writes only one element",
  "breaks": [
   "C96"
  ]
 },
 {
  "file": "IoReset_Model",
  "def": "run_post_mgmt",
  "old": "(fun z => z + inject_Z r)%Q",
  "new": "(fun z => z)",
  "edit": "Reset always writes 0",
  "breaks": [
   "C96"
  ]
 },
 {
  "file": "IoReset_Model",
  "def": "run_post_mgmt",
  "old": "| HRead _ _ => [Read]",
  "new": "| HRead _ _ => [Read; Read]",
  "edit": "Read samples twice",
  "breaks": [
   "C96"
  ]
 },
 {
  "file": "IoReset_Model",
  "def": "requests",
  "old": "if post_guard h t then run_post_mgmt n h else []",
  "new": "run_post_mgmt n h",
  "edit": "guard ignored",
  "breaks": [
   "C96"
  ]
 },
 {
  "file": "IoReset_Model",
  "def": "requests",
  "old": "if post_guard h t then run_post_mgmt n h else []",
  "new": "if post_guard h (t + 1) then run_post_mgmt n h else []",
  "edit": "guard asked before time_step is advanced",
  "breaks": [
   "C96"
  ]
 },
 {
  "file": "IoReset_Model",
  "def": "same",
  "old": "Definition same (j : nat) (v : value) := v",
  "new": "Definition same (j : nat) (v : value) := rev v",
  "edit": "data reordered on the way",
  "breaks": [
   "C96"
  ]
 },
 {
  "file": "IoReset_Model",
  "def": "phase_over",
  "old": "prog s j = [] /\\ cl s j = CIdle",
  "new": "prog s j = []",
  "edit": "phase over although a process still waits for an answer",
  "breaks": [
   "C96"
  ]
 },
 {
  "file": "IoReset_Model",
  "def": "in_phase",
  "old": "/\\ (forall v, ~ In (LOwn v) (log s))",
  "new": "",
  "edit": "owner changes the Var during the phase",
  "breaks": [
   "C96"
  ]
 },
 {
  "file": "IoReset_Model",
  "def": "run",
  "old": "(ts ++ [Tick x (var s) (got s)])",
  "new": "(ts ++ [Tick (var s) (var s) (got s)])",
  "edit": "recorded value of the owner is the one after the phase",
  "breaks": [
   "C96"
  ]
 },
 {
  "file": "PyPorts_Model",
  "def": "rstep",
  "old": "got := got s; ow := OIdle; var := fwd j v; log := log s ++ [LWrite j v] |}",
  "new": "got := got s; ow := OIdle; var := if true then var s else fwd j v; log := log s ++ [LWrite j v] |}",
  "edit": "served write does not change the Var",
  "breaks": [
   "C96",
   "C19"
  ]
 }
]