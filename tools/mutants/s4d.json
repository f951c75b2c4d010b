[
 {
  "file": "S4d_Model",
  "def": "cmul",
  "old": "cre x * cre y - cim x * cim y",
  "new": "cre x * cre y + cim x * cim y",
  "edit": "wrong sign in complex product",
  "breaks": [
   "C90"
  ],
  "tightened": [
   "s4d_computes_the_response_of_the_linear_system (specification with its own complex arithmetic)"
  ]
 },
 {
  "file": "S4d_Model",
  "def": "cmul",
  "old": "cre x * cim y + cim x * cre y",
  "new": "cre x * cim y",
  "edit": "imaginary part of a product incomplete",
  "breaks": [
   "C90"
  ]
 },
 {
  "file": "S4d_Model",
  "def": "cadd",
  "old": "cim := cim x + cim y",
  "new": "cim := cim x",
  "edit": "imaginary part not added",
  "breaks": [
   "C90"
  ]
 },
 {
  "file": "S4d_Model",
  "def": "s4d_step",
  "old": "let s' := cadd (cmul s a) (cmul (creal x) b) in (s', cre (cmul (cmul c s') (creal 2)))",
  "new": "let s' := cadd (cmul s a) (cmul (creal x) b) in (s', cre (cmul (cmul c s) (creal 2)))",
  "edit": "output from the old state (the documented equations)",
  "breaks": [
   "C90"
  ]
 },
 {
  "file": "S4d_Model",
  "def": "s4d_step",
  "old": "(s', cre (cmul (cmul c s') (creal 2)))",
  "new": "(s', cre (cmul c s'))",
  "edit": "factor 2 missing",
  "breaks": [
   "C90"
  ]
 },
 {
  "file": "S4d_Model",
  "def": "s4d_step",
  "old": "(cmul s a) (cmul (creal x) b)",
  "new": "(cmul s b) (cmul (creal x) a)",
  "edit": "a and b swapped",
  "breaks": [
   "C90"
  ]
 },
 {
  "file": "S4d_Model",
  "def": "s4d_step",
  "old": "(s', cre (cmul (cmul c s') (creal 2)))",
  "new": "(s', cre c * cre s' * 2)",
  "edit": "real parts taken before the product",
  "breaks": [
   "C90"
  ]
 },
 {
  "file": "S4d_Model",
  "def": "s4d_step",
  "old": "cadd (cmul s a) (cmul (creal x) b)",
  "new": "cmul (cadd s (cmul (creal x) b)) a",
  "edit": "input added before the decay",
  "breaks": [
   "C90"
  ]
 },
 {
  "file": "S4d_Model",
  "def": "s4d_outputs",
  "old": "y :: s4d_outputs a b c s' r",
  "new": "y :: s4d_outputs a b c s r",
  "edit": "state not kept",
  "breaks": [
   "C90"
  ]
 },
 {
  "file": "S4d_Model",
  "def": "ss_step",
  "old": "let g := x + sg q in",
  "new": "let g := x in",
  "edit": "sigma does not accumulate",
  "breaks": [
   "C91"
  ]
 },
 {
  "file": "S4d_Model",
  "def": "ss_step",
  "old": "s4 q * cre (pa p) + g * cre (pb p)",
  "new": "s4 q * cre (pa p) + x * cre (pb p)",
  "edit": "input instead of its sum",
  "breaks": [
   "C91"
  ]
 },
 {
  "file": "S4d_Model",
  "def": "ss_step",
  "old": "let y := cre (pc p) * s' * 2 in",
  "new": "let y := cre (pc p) * s' in",
  "edit": "factor 2 missing",
  "breaks": [
   "C91"
  ]
 },
 {
  "file": "S4d_Model",
  "def": "ss_step",
  "old": "let d := y - act q + residue q in",
  "new": "let d := y - act q in",
  "edit": "residue dropped",
  "breaks": [
   "C91"
  ]
 },
 {
  "file": "S4d_Model",
  "def": "ss_step",
  "old": "let d := y - act q + residue q in",
  "new": "let d := y - act q - residue q in",
  "edit": "residue subtracted",
  "breaks": [
   "C91"
  ]
 },
 {
  "file": "S4d_Model",
  "def": "ss_step",
  "old": "    let out := if Qle_bool th (Qabs d) then d else 0 in",
  "new": "    let out := if Qle_bool th d then d else 0 in",
  "edit": "negative changes not sent",
  "breaks": [
   "C91"
  ]
 },
 {
  "file": "S4d_Model",
  "def": "ss_step",
  "old": "    let out := if Qle_bool th (Qabs d) then d else 0 in",
  "new": "    let out := if Qle_bool th (Qabs d) then d - th else 0 in",
  "edit": "threshold subtracted from the change",
  "breaks": [
   "C91"
  ]
 },
 {
  "file": "S4d_Model",
  "def": "ss_step",
  "old": "    let out := if Qle_bool th (Qabs d) then d else 0 in",
  "new": "    let out := if Qle_bool (Qabs d) th then 0 else d in",
  "edit": "sent only if larger than the threshold (as documented)",
  "breaks": [
   "C91"
  ]
 },
 {
  "file": "S4d_Model",
  "def": "ss_step",
  "old": "    ({| sg := g; s4 := s'; act := y; residue := d - out; error := error q |}, out)",
  "new": "    ({| sg := g; s4 := s'; act := act q; residue := d - out; error := error q |}, out)",
  "edit": "activation not updated",
  "breaks": [
   "C91"
  ]
 },
 {
  "file": "S4d_Model",
  "def": "ss_step",
  "old": "    ({| sg := g; s4 := s'; act := y; residue := d - out; error := error q |}, out)",
  "new": "    ({| sg := g; s4 := s4 q; act := y; residue := d - out; error := error q |}, out)",
  "edit": "state not updated",
  "breaks": [
   "C91"
  ]
 },
 {
  "file": "S4d_Model",
  "def": "ss_step",
  "old": "    ({| sg := g; s4 := s'; act := y; residue := d - out; error := error q |}, out)",
  "new": "    ({| sg := g; s4 := s'; act := y; residue := d; error := error q |}, out)",
  "edit": "residue keeps what was sent",
  "breaks": [
   "C91"
  ]
 },
 {
  "file": "S4d_Model",
  "def": "ss_step",
  "old": "let e := error q + d in",
  "new": "let e := d in",
  "edit": "error does not accumulate",
  "breaks": [
   "C91"
  ]
 },
 {
  "file": "S4d_Model",
  "def": "ss_step",
  "old": "error := e * (1 - (if Qle_bool (Qabs out) 0 then 0 else 1))",
  "new": "error := e",
  "edit": "error not cleared by a message",
  "breaks": [
   "C91"
  ]
 },
 {
  "file": "S4d_Model",
  "def": "ss_step",
  "old": "error := e * (1 - (if Qle_bool (Qabs out) 0 then 0 else 1))",
  "new": "error := e * (if Qle_bool (Qabs out) 0 then 0 else 1)",
  "edit": "error kept only after a message",
  "breaks": [
   "C91"
  ]
 },
 {
  "file": "S4d_Model",
  "def": "threshold",
  "old": "vth * inject_Z (2 ^ state_exp)",
  "new": "vth",
  "edit": "threshold not scaled (the intended program)",
  "breaks": [
   "C91"
  ]
 },
 {
  "file": "S4d_Model",
  "def": "kron",
  "old": "A i (j / d)%nat * B (j mod d)%nat",
  "new": "A i (j mod d)%nat * B (j / d)%nat",
  "edit": "Kronecker product in the other order",
  "breaks": [
   "C91"
  ]
 },
 {
  "file": "S4d_Model",
  "def": "eye",
  "old": "if (i =? j)%nat then 1 else 0",
  "new": "if (i <=? j)%nat then 1 else 0",
  "edit": "triangular instead of identity",
  "breaks": [
   "C91"
  ]
 },
 {
  "file": "S4d_Model",
  "def": "message",
  "old": "if graded then x else",
  "new": "if graded then (if Qeq_bool x 0 then 0 else 1) else",
  "edit": "graded messages sent as ones",
  "breaks": [
   "C91"
  ]
 },
 {
  "file": "S4d_Model",
  "def": "layer_step",
  "old": "buf1 := dot (fun i j => conn_weights d j i) n graded x",
  "new": "buf1 := dot (conn_weights d) n graded x",
  "edit": "weights of the first connection not transposed",
  "breaks": [
   "C91"
  ]
 },
 {
  "file": "S4d_Model",
  "def": "layer_step",
  "old": "buf2 := dot (conn_weights d) (n * d) graded (fun k => snd (run k)) |}, buf2 l)",
  "new": "buf2 := dot (conn_weights d) (n * d) graded (fun k => snd (run k)) |}, dot (conn_weights d) (n * d) graded (fun k => snd (run k)))",
  "edit": "second connection not buffered",
  "breaks": [
   "C91"
  ]
 },
 {
  "file": "S4d_Model",
  "def": "layer_step",
  "old": "buf2 := dot (conn_weights d) (n * d) graded (fun k => snd (run k))",
  "new": "buf2 := dot (conn_weights d) n graded (fun k => snd (run k))",
  "edit": "only n neurons read",
  "breaks": [
   "C91"
  ]
 },
 {
  "file": "S4d_Model",
  "def": "layer_step",
  "old": "ss_step false th (P k) (neurons l k) (buf1 l k)",
  "new": "ss_step false th (P k) (neurons l k) (dot (fun i j => conn_weights d j i) n graded x k)",
  "edit": "first connection not buffered",
  "breaks": [
   "C91"
  ]
 },
 {
  "file": "S4d_Model",
  "def": "layer_step",
  "old": "ss_step false th (P k) (neurons l k) (buf1 l k)",
  "new": "ss_step false th (P (k / d)%nat) (neurons l k) (buf1 l k)",
  "edit": "parameters per channel",
  "breaks": [
   "C91"
  ]
 },
 {
  "file": "S4d_Model",
  "def": "layer_step",
  "old": "neurons := fun k => fst (run k)",
  "new": "neurons := neurons l",
  "edit": "neurons keep their state",
  "breaks": [
   "C91"
  ]
 }
]