[
 {
  "file": "PyPorts_Model",
  "def": "rstep",
  "old": "got := got s; ow := OIdle; var := fwd j v; log := log s ++ [LWrite j v] |}",
  "new": "got := got s; ow := OIdle; var := if true then var s else fwd j v; log := log s ++ [LWrite j v] |}",
  "edit": "served write does not change the Var",
  "breaks": [
   "C96",
   "C19"
  ]
 }
]