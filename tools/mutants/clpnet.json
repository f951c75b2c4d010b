[
 {
  "file": "ClpNet_Model",
  "def": "bap_of",
  "old": "let i := id - 1 in",
  "new": "let i := id in",
  "edit": "third factor id is used as index without the offset",
  "breaks": [
   "C87"
  ]
 },
 {
  "file": "ClpNet_Model",
  "def": "bap_of",
  "old": "(i <? Z.of_nat n) then Some (fun m => Z.of_nat m =? i)",
  "new": "(i <=? Z.of_nat n) then Some (fun m => Z.of_nat m =? i)",
  "edit": "an id beyond the last neuron is ignored",
  "breaks": [
   "C87"
  ]
 },
 {
  "file": "ClpNet_Model",
  "def": "proto_step",
  "old": "let spk := fun m => if third then bap m else vth * 64 <? y' m in",
  "new": "let spk := fun m => bap m || (vth * 64 <? y' m) in",
  "edit": "threshold spikes are sent together with the third-factor spike",
  "breaks": [
   "C87"
  ]
 },
 {
  "file": "ClpNet_Model",
  "def": "proto_step",
  "old": "if third then bap m else vth * 64 <? y' m in",
  "new": "if third then bap m else vth * 64 <=? y' m in",
  "edit": "spike at threshold",
  "breaks": [
   "C87"
  ]
 },
 {
  "file": "ClpNet_Model",
  "def": "proto_step",
  "old": "if third then bap m else vth * 64 <? y' m in",
  "new": "if third then bap m else vth <? y' m in",
  "edit": "threshold not shifted by 6",
  "breaks": [
   "C87"
  ]
 },
 {
  "file": "ClpNet_Model",
  "def": "proto_step",
  "old": "pv := vec n (fun m => if spk m then 0 else y' m)",
  "new": "pv := vec n (fun m => y' m)",
  "edit": "membrane not reset after a spike",
  "breaks": [
   "C87"
  ]
 },
 {
  "file": "ClpNet_Model",
  "def": "proto_step",
  "old": "vec n (fun m => if bap m then 127 else 0)",
  "new": "vec n (fun m => if bap m then 127 else py1 s m)",
  "edit": "y1 of the other prototypes not cleared",
  "breaks": [
   "C87"
  ]
 },
 {
  "file": "ClpNet_Model",
  "def": "proto_step",
  "old": "if bap m then 127 else 0",
  "new": "if bap m then 63 else 0",
  "edit": "y1 trace of the winner too small",
  "breaks": [
   "C87"
  ]
 },
 {
  "file": "ClpNet_Model",
  "def": "proto_step",
  "old": "vecb n spk, vecb n bap",
  "new": "vecb n spk, vecb n spk",
  "edit": "every output spike is a back-propagating spike",
  "breaks": [
   "C87"
  ]
 },
 {
  "file": "ClpNet_Model",
  "def": "proto_step",
  "old": "let y' := fun m => if 0 <? reset m then 0 else y m in",
  "new": "let y' := fun m => if 0 <=? reset m then 0 else y m in",
  "edit": "reset without reset spike",
  "breaks": [
   "C87"
  ]
 },
 {
  "file": "ClpNet_Model",
  "def": "clp_product",
  "old": "p_mant := 1; p_exp := 4;",
  "new": "p_mant := 1; p_exp := 3;",
  "edit": "learning rule scaled by 2",
  "breaks": [
   "C87"
  ]
 },
 {
  "file": "ClpNet_Model",
  "def": "clp_product",
  "old": "{| p_dep := DY0;",
  "new": "{| p_dep := DX0;",
  "edit": "learning gated by the presynaptic spike",
  "breaks": [
   "C87"
  ]
 },
 {
  "file": "ClpNet_Model",
  "def": "clp_learning",
  "old": "cfg_graded := Overwrite;",
  "new": "cfg_graded := AddWithSaturation;",
  "edit": "graded spikes added to the trace instead of overwriting",
  "breaks": [
   "C87"
  ]
 },
 {
  "file": "ClpNet_Model",
  "def": "net_step",
  "old": "a_proto := vec np (fun m => w32 (dot nf (syn_val (c_conn s) SWeights m) p))",
  "new": "a_proto := vec np (fun m => w32 (a_proto s m + dot nf (syn_val (c_conn s) SWeights m) p))",
  "edit": "a_buff of the learning synapses accumulates",
  "breaks": [
   "C87"
  ]
 },
 {
  "file": "ClpNet_Model",
  "def": "net_step",
  "old": "d_out := dense_receives aval_dense (d_out s) (vals np (fun m => if spk m then 1 else 0));",
  "new": "d_out := dense_receives aval_dense (d_out s) (vals np (fun m => if bap m then 1 else 0));",
  "edit": "back-propagating spikes go to the novelty detector instead of the output",
  "breaks": [
   "C87"
  ]
 },
 {
  "file": "ClpNet_Model",
  "def": "net_step",
  "old": "d_third := dense_receives third_dense (d_third s) [alloc];",
  "new": "d_third := dense_receives aval_dense (d_third s) [alloc];",
  "edit": "allocation id sent through binary synapses",
  "breaks": [
   "C87"
  ]
 },
 {
  "file": "ClpNet_Model",
  "def": "net_step",
  "old": "Clp_Model.nd_step (t_wait C) (c_nov s) in_aval out_aval",
  "new": "Clp_Model.nd_step (t_wait C) (c_nov s) out_aval in_aval",
  "edit": "inputs of the novelty detector swapped",
  "breaks": [
   "C87"
  ]
 },
 {
  "file": "ClpNet_Model",
  "def": "net_step",
  "old": "Clp_Model.nd_step (t_wait C) (c_nov s)",
  "new": "Clp_Model.nd_step (t_wait C + 1) (c_nov s)",
  "edit": "waits one step longer",
  "breaks": [
   "C87"
  ]
 },
 {
  "file": "ClpNet_Model",
  "def": "net_step",
  "old": "h_y := fun tr => match tr with TY1 => py1 pr",
  "new": "h_y := fun tr => match tr with TY1 => py1 (c_proto s)",
  "edit": "learning uses the y1 of the step before",
  "breaks": [
   "C87"
  ]
 },
 {
  "file": "ClpNet_Model",
  "def": "net_step",
  "old": "{| s_in := p; s_bap := bap;",
  "new": "{| s_in := p; s_bap := spk;",
  "edit": "the learning synapses see the output instead of the back-propagating spikes",
  "breaks": [
   "C87"
  ]
 },
 {
  "file": "ClpNet_Model",
  "def": "clp_lif",
  "old": "Lif_Model.dv := 4095",
  "new": "Lif_Model.dv := 0",
  "edit": "membrane without decay",
  "breaks": [
   "C87"
  ]
 },
 {
  "file": "ClpNet_Model",
  "def": "clp_lif",
  "old": "Lif_Model.du := 4095",
  "new": "Lif_Model.du := 0",
  "edit": "current without decay",
  "breaks": [
   "C87"
  ]
 },
 {
  "file": "ClpNet_Model",
  "def": "clp_init",
  "old": "d_in := fresh (ones_row (n_features C)) 1;",
  "new": "d_in := fresh [repeat 0 (n_features C)] 1;",
  "edit": "input not connected to the novelty detector",
  "breaks": [
   "C87"
  ]
 },
 {
  "file": "ClpNet_Model",
  "def": "store",
  "old": "y1 := vec np (y1 s);",
  "new": "y1 := vec nf (y1 s);",
  "edit": "y1 stored with the wrong length (overwritten by the neuron before every use) - equivalent program, expected to survive",
  "breaks": []
 }
]