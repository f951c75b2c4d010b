[
 {
  "file": "Connect_Model",
  "def": "isinstance",
  "old": "| TAbstractSrcPort => match c with OutPort | RefPort => true",
  "new": "| TAbstractSrcPort => match c with OutPort => true",
  "edit": "RefPort is no source port",
  "breaks": [
   "C76"
  ],
  "tightened": [
   "connect_accepts_exactly",
   "connect_from_accepts_exactly"
  ]
 },
 {
  "file": "Connect_Model",
  "def": "isinstance",
  "old": "pclass_eqb c d || (pclass_eqb c ImplicitVarPort && pclass_eqb d VarPort)",
  "new": "pclass_eqb c d",
  "edit": "ImplicitVarPort is no VarPort",
  "breaks": [
   "C76"
  ],
  "tightened": [
   "connect_accepts_exactly",
   "connect_from_accepts_exactly"
  ]
 },
 {
  "file": "Connect_Model",
  "def": "arg_isinstance",
  "old": "| Many _ => false",
  "new": "| Many l => forallb (fun p => match nth_error g p with Some q => isinstance (cls q) t | None => false end) l",
  "edit": "lists of RefPorts checked too",
  "breaks": [
   "C76"
  ],
  "tightened": [
   "connect_accepts_exactly",
   "connect_from_accepts_exactly"
  ]
 },
 {
  "file": "Connect_Model",
  "def": "rv_check",
  "old": "if (0 <? length ds) && negb (arg_isinstance g a TAbstractSrcPort) then",
  "new": "if (0 <? length ds) then",
  "edit": "a port with destinations accepts no RefPort either",
  "breaks": [
   "C76"
  ]
 },
 {
  "file": "Connect_Model",
  "def": "do_connect",
  "old": "| OutPort => connect_forward g self (to_list a) TAbstractIOPort configs true true\n      | InPort => connect_forward g self (to_list a) (TExact InPort) configs true true\n      | RefPort =>\n          match rv_check",
  "new": "| OutPort => connect_forward g self (to_list a) (TExact InPort) configs true true\n      | InPort => connect_forward g self (to_list a) (TExact InPort) configs true true\n      | RefPort =>\n          match rv_check",
  "edit": "OutPort refuses OutPorts",
  "breaks": [
   "C76"
  ]
 },
 {
  "file": "Groups_Model",
  "def": "of_type",
  "old": "GP p => mtype p =? t | GG _ => false",
  "new": "GP p => (mtype p =? t) || true | GG _ => false",
  "edit": "models of different types grouped",
  "breaks": [
   "C27"
  ]
 },
 {
  "file": "IoPolicy_Model",
  "def": "plus",
  "old": "None => v | Some a => add a v",
  "new": "None => v | Some a => (fun _ => v) (add a v)",
  "edit": "accumulate keeps the last item",
  "breaks": [
   "C46"
  ]
 },
 {
  "file": "Learning_Model",
  "def": "half_even",
  "old": "else if Z.even (a / 2) then a / 2 else a / 2 + 1",
  "new": "else a / 2 + 1",
  "edit": "ties rounded up",
  "breaks": [
   "C49"
  ],
  "tightened": [
   "graded_add_saturates_partial",
   "graded_overwrites_half"
  ]
 },
 {
  "file": "Retune_Model",
  "def": "applier",
  "old": "if applier_ok ps then Some (Some ps) else None",
  "new": "if applier_ok ps || true then Some (Some ps) else None",
  "edit": "unusable rule accepted",
  "breaks": [
   "C95"
  ]
 },
 {
  "file": "Retune_Model",
  "def": "float_traces",
  "old": "f_impulse := get_trace imp tr",
  "new": "f_impulse := get_trace imp TX1",
  "edit": "all traces use the x1 impulse",
  "breaks": [
   "C95"
  ],
  "tightened": [
   "float_settings_are_built"
  ]
 },
 {
  "file": "Retune_Model",
  "def": "float_traces",
  "old": "if Qeq_bool (get_trace tau tr) 0 then None",
  "new": "if Qeq_bool (get_trace imp tr) 0 then None",
  "edit": "decay decided by the impulse",
  "breaks": [
   "C95"
  ],
  "tightened": [
   "float_settings_are_built"
  ]
 },
 {
  "file": "Retune_Model",
  "def": "np_round",
  "old": "Eq => if Z.even f then f else f + 1",
  "new": "Eq => f + 1",
  "edit": "fraction of an impulse rounded up in ties",
  "breaks": [
   "C95"
  ],
  "tightened": [
   "fixed_settings_are_built"
  ]
 },
 {
  "file": "Retune_Model",
  "def": "fixed_trace",
  "old": "* 128);",
  "new": "* 256);",
  "edit": "fraction of an impulse in 256ths",
  "breaks": [
   "C95"
  ],
  "tightened": [
   "fixed_settings_are_built"
  ]
 }
]