[
 {
  "file": "LSparse_Model",
  "def": "of_array",
  "old": "negb (w post pre =? 0)",
  "new": "w post pre =? 0",
  "edit": "zeros stored instead of non-zeros",
  "breaks": [
   "C92"
  ]
 },
 {
  "file": "LSparse_Model",
  "def": "stored_init",
  "old": "None => of_array (fun _ _ => 0)",
  "new": "None => of_array weights",
  "edit": "tags that are not given stored as the weights (the intended program)",
  "breaks": [
   "C92"
  ]
 },
 {
  "file": "LSparse_Model",
  "def": "truncated",
  "old": "truncate m bits 8 (syn_val s y post pre)",
  "new": "syn_val s y post pre",
  "edit": "weights not truncated",
  "breaks": [
   "C92"
  ]
 },
 {
  "file": "LSparse_Model",
  "def": "eliminated",
  "old": "st y post pre && negb (syn_val s y post pre =? 0)",
  "new": "st y post pre",
  "edit": "zeros kept after truncation (the intended program)",
  "breaks": [
   "C92"
  ]
 },
 {
  "file": "LSparse_Model",
  "def": "eliminated",
  "old": "st y post pre && negb (syn_val s y post pre =? 0)",
  "new": "st y post pre && (syn_val s y post pre =? 0)",
  "edit": "only zeros kept",
  "breaks": [
   "C92"
  ]
 },
 {
  "file": "LSparse_Model",
  "def": "sp_learned",
  "old": "if st y post pre then learned c t i s y post pre else syn_val s y post pre",
  "new": "if st y post pre then syn_val s y post pre else learned c t i s y post pre",
  "edit": "stored positions are those that do not learn",
  "breaks": [
   "C92"
  ]
 },
 {
  "file": "LSparse_Model",
  "def": "sp_learned",
  "old": "if st y post pre then learned c t i s y post pre else",
  "new": "if st y pre post then learned c t i s y post pre else",
  "edit": "rows and columns of the pattern swapped",
  "breaks": [
   "C92"
  ]
 },
 {
  "file": "LSparse_Model",
  "def": "sp_learned",
  "old": "if st y post pre then learned c t i s y post pre else",
  "new": "if st SWeights post pre then learned c t i s y post pre else",
  "edit": "pattern of the weights used for the tags",
  "breaks": [
   "C92"
  ]
 },
 {
  "file": "LSparse_Model",
  "def": "sp_learned",
  "old": "if st y post pre then learned c t i s y post pre else",
  "new": "if st y post pre && negb (syn_val s y post pre =? 0) then learned c t i s y post pre else",
  "edit": "find without explicit zeros: a weight that reaches 0 stops learning",
  "breaks": [
   "C92"
  ]
 },
 {
  "file": "LSparse_Model",
  "def": "sp_learned",
  "old": "if st y post pre then learned c t i s y post pre else syn_val s y post pre",
  "new": "learned c t i s y post pre",
  "edit": "all positions learn",
  "breaks": [
   "C92"
  ]
 },
 {
  "file": "LSparse_Model",
  "def": "sp_learn_phase",
  "old": "tx := tx l;",
  "new": "tx := tx s;",
  "edit": "spike times not cleared",
  "breaks": [
   "C92"
  ]
 },
 {
  "file": "LSparse_Model",
  "def": "sp_step",
  "old": "if lrn_guard (t_epoch c) t then sp_learn_phase c t i st s' else s'",
  "new": "if lrn_guard (t_epoch c) t then sp_learn_phase c t i st s else s'",
  "edit": "learning phase ignores the spikes of its step",
  "breaks": [
   "C92"
  ]
 },
 {
  "file": "LSparse_Model",
  "def": "sp_step",
  "old": "if lrn_guard (t_epoch c) t then sp_learn_phase c t i st s' else s'",
  "new": "sp_learn_phase c t i st s'",
  "edit": "learning in every step",
  "breaks": [
   "C92"
  ]
 },
 {
  "file": "LSparse_Model",
  "def": "sp_run",
  "old": "| S k => sp_step c (Z.of_nat n) (i n)",
  "new": "| S k => sp_step c (Z.of_nat k) (i n)",
  "edit": "time steps counted from 0",
  "breaks": [
   "C92"
  ]
 },
 {
  "file": "LSparse_Model",
  "def": "learning_sparse",
  "old": "sp_run c i (eliminated s1 st) s1 n",
  "new": "sp_run c i (eliminated s0 st) s1 n",
  "edit": "zeros eliminated before the truncation",
  "breaks": [
   "C92"
  ]
 },
 {
  "file": "LSparse_Model",
  "def": "fsp_learned",
  "old": "if st y post pre then flearned c t s y post pre else",
  "new": "if st y post pre then flearned c t s SWeights post pre else",
  "edit": "rule of the weights for all variables",
  "breaks": [
   "C92"
  ]
 },
 {
  "file": "LSparse_Model",
  "def": "fsp_learned",
  "old": "else f_syn s y post pre",
  "new": "else Some 0%Q",
  "edit": "absent positions cleared",
  "breaks": [
   "C92"
  ]
 },
 {
  "file": "LSparse_Model",
  "def": "fsp_learn_phase",
  "old": "f_tr := f_tr l",
  "new": "f_tr := f_tr s",
  "edit": "traces not advanced",
  "breaks": [
   "C92"
  ]
 },
 {
  "file": "LSparse_Model",
  "def": "fsp_step",
  "old": "let s' := fspike_phase c t i s in",
  "new": "let s' := s in",
  "edit": "spikes ignored",
  "breaks": [
   "C92"
  ]
 },
 {
  "file": "LSparse_Model",
  "def": "fsp_run",
  "old": "fsp_step c (Z.of_nat n) (i n) st",
  "new": "fsp_step c (Z.of_nat n) (i k) st",
  "edit": "input of the step before",
  "breaks": [
   "C92"
  ]
 }
]