[
 {
  "file": "Factor3_Model",
  "def": "three_factor_traces",
  "old": "{| f_decay := Some dy; f_impulse := 0 |}",
  "new": "{| f_decay := Some dy; f_impulse := 1 |}",
  "edit": "y impulse 1 instead of 0",
  "breaks": [
   "C84"
  ]
 },
 {
  "file": "Factor3_Model",
  "def": "three_factor_traces",
  "old": "{| f_decay := Some dy; f_impulse := 0 |}",
  "new": "{| f_decay := None; f_impulse := 0 |}",
  "edit": "y time constant 0",
  "breaks": [
   "C84"
  ]
 },
 {
  "file": "Factor3_Model",
  "def": "f3spike_phase",
  "old": "| _ => Some (g_y i tr n) end;\n     f_syn := f_syn s' |}.",
  "new": "| TY3 => f_tr s' tr n | _ => Some (g_y i tr n) end;\n     f_syn := f_syn s' |}.",
  "edit": "y3 not received",
  "breaks": [
   "C84"
  ]
 },
 {
  "file": "Factor3_Model",
  "def": "f3spike_phase",
  "old": "Some (g_y i tr n)",
  "new": "Some (g_y i TY1 n)",
  "edit": "y1 stored in all three traces",
  "breaks": [
   "C84"
  ]
 },
 {
  "file": "Factor3_Model",
  "def": "f3spike_phase",
  "old": "match tr with TX1 | TX2 => f_tr s' tr n | _ => Some",
  "new": "match tr with TX1 | TX2 => f_tr s tr n | _ => Some",
  "edit": "pre-synaptic trace updates of the spike phase dropped",
  "breaks": [
   "C84"
  ]
 },
 {
  "file": "Factor3_Model",
  "def": "f3spike_phase",
  "old": "{| f_tx := f_tx s'; f_ty := f_ty s';\n     f_tr := fun tr n => match tr with TX1 | TX2 => f_tr s' tr n | _ => Some",
  "new": "{| f_tx := f_tx s'; f_ty := f_ty s;\n     f_tr := fun tr n => match tr with TX1 | TX2 => f_tr s' tr n | _ => Some",
  "edit": "post-synaptic spike times not updated",
  "breaks": [
   "C84"
  ]
 },
 {
  "file": "Factor3_Model",
  "def": "f3learn_phase",
  "old": "| _ => f_tr s tr n end",
  "new": "| _ => f_tr s' tr n end",
  "edit": "decayed y written back after learning",
  "breaks": [
   "C84"
  ]
 },
 {
  "file": "Factor3_Model",
  "def": "f3learn_phase",
  "old": "let s' := flearn_phase c t s in",
  "new": "let s' := flearn_phase c (t + 1) s in",
  "edit": "epoch counter off by one",
  "breaks": [
   "C84"
  ]
 },
 {
  "file": "Factor3_Model",
  "def": "f3step",
  "old": "if lrn_guard (fc_epoch c) t then f3learn_phase c t s' else s'",
  "new": "f3learn_phase c t s'",
  "edit": "learning at every step",
  "breaks": [
   "C84"
  ]
 },
 {
  "file": "Factor3_Model",
  "def": "f3step",
  "old": "f3learn_phase c t s' else s'",
  "new": "f3learn_phase c t s else s'",
  "edit": "spikes and signals of the last step of the epoch lost",
  "breaks": [
   "C84"
  ]
 },
 {
  "file": "Factor3_Model",
  "def": "three_factor_cfg",
  "old": "{| imp_int := 0; imp_frac := 0; decay_fn := Some f |}",
  "new": "{| imp_int := 0; imp_frac := 64; decay_fn := Some f |}",
  "edit": "fractional impulse for y traces",
  "breaks": [
   "C84"
  ]
 },
 {
  "file": "Factor3_Model",
  "def": "three_factor_cfg",
  "old": "{| imp_int := 0; imp_frac := 0; decay_fn := Some f |}",
  "new": "{| imp_int := 0; imp_frac := 0; decay_fn := None |}",
  "edit": "y time constant 0 (fixed point)",
  "breaks": [
   "C84"
  ]
 },
 {
  "file": "Factor3_Model",
  "def": "spike_phase3",
  "old": "y2 := h_y i TY2",
  "new": "y2 := h_y i TY1",
  "edit": "y1 stored in y2 (fixed point)",
  "breaks": [
   "C84"
  ]
 },
 {
  "file": "Factor3_Model",
  "def": "spike_phase3",
  "old": "tx := tx s'; x1 := x1 s'; x2 := x2 s'; ty := ty s'; y1 := h_y",
  "new": "tx := tx s'; x1 := x1 s; x2 := x2 s'; ty := ty s'; y1 := h_y",
  "edit": "x1 update of spikes dropped (fixed point)",
  "breaks": [
   "C84"
  ]
 },
 {
  "file": "Factor3_Model",
  "def": "learn_phase3",
  "old": "y1 := y1 s; y2 := y2 s;",
  "new": "y1 := y1 s'; y2 := y2 s;",
  "edit": "decayed y1 written back (fixed point)",
  "breaks": [
   "C84"
  ]
 },
 {
  "file": "Factor3_Model",
  "def": "conn_step3",
  "old": "then learn_phase3 c t i s' else s'",
  "new": "then learn_phase3 c t i s else s'",
  "edit": "last spikes lost (fixed point)",
  "breaks": [
   "C84"
  ]
 },
 {
  "file": "Learning_Model",
  "def": "add_impulse",
  "old": "clip 0 127 (round_up",
  "new": "clip (-128) 127 (round_up",
  "edit": "impulse addition clips to signed range: punishments survive",
  "breaks": [
   "C84"
  ]
 }
]