[
 {
  "file": "RfAlg_Model",
  "def": "RfAlg_Model.rf_list",
  "old": "connect s a y with",
  "new": "connect s a (in2 y) with",
  "edit": "the first element goes to the second InPort",
  "breaks": [
   "C107"
  ]
 },
 {
  "file": "RfAlg_Model",
  "def": "RfAlg_Model.rf_list",
  "old": "connect s1 b (in2 y)",
  "new": "connect s1 b y",
  "edit": "both elements go to the first InPort",
  "breaks": [
   "C107"
  ]
 },
 {
  "file": "RfAlg_Model",
  "def": "RfAlg_Model.rf_list",
  "old": "connect s1 b (in2 y)",
  "new": "connect s1 a (in2 y)",
  "edit": "the first element goes to both InPorts",
  "breaks": [
   "C107"
  ]
 },
 {
  "file": "RfAlg_Model",
  "def": "RfAlg_Model.rf_list",
  "old": "connect s1 b (in2 y)",
  "new": "connect s b (in2 y)",
  "edit": "the first connection is lost",
  "breaks": [
   "C107"
  ]
 },
 {
  "file": "RfAlg_Model",
  "def": "RfAlg_Model.rf_list",
  "old": "| [] => (s1, Exc) ",
  "new": "| [] => (s1, Val None) ",
  "edit": "a single element is accepted",
  "breaks": [
   "C107"
  ]
 },
 {
  "file": "RfAlg_Model",
  "def": "RfAlg_Model.rf_list",
  "old": "| [] => (s1, Exc) ",
  "new": "| [] => (s, Exc) ",
  "edit": "a single element connects nothing",
  "breaks": [
   "C107"
  ]
 },
 {
  "file": "RfAlg_Model",
  "def": "RfAlg_Model.rf_list",
  "old": "| [] => (s, Exc) ",
  "new": "| [] => (s, Val None) ",
  "edit": "an empty tuple is accepted",
  "breaks": [
   "C107"
  ]
 },
 {
  "file": "RfAlg_Model",
  "def": "RfAlg_Model.rf_list",
  "old": "| b :: _ => match",
  "new": "| b :: _ :: _ => (s1, Exc)\n      | [b] => match",
  "edit": "a longer tuple raises",
  "breaks": [
   "C107"
  ]
 },
 {
  "file": "RfAlg_Model",
  "def": "RfAlg_Model.rf_list",
  "old": "Done s2 => (s2, Val None) | Raised => (s1, Exc)",
  "new": "Done s2 => (s2, Val None) | Raised => (s, Exc)",
  "edit": "a failing second connection undoes the first",
  "breaks": [
   "C107"
  ]
 },
 {
  "file": "RfAlg_Model",
  "def": "RfAlg_Model.rf_list",
  "old": "Done s2 => (s2, Val None) | Raised => (s1, Exc)",
  "new": "Done s2 => (s2, Val (Some y)) | Raised => (s1, Exc)",
  "edit": "the pair returns y",
  "breaks": [
   "C107"
  ]
 },
 {
  "file": "RfAlg_Model",
  "def": "RfAlg_Model.rf_list",
  "old": "    | Raised => (s, Exc)\n",
  "new": "    | Raised => match r with b :: _ => match connect s b (in2 y) with Done s2 => (s2, Exc) | Raised => (s, Exc) end | [] => (s, Exc) end\n",
  "edit": "the second is connected even if the first fails",
  "breaks": [
   "C107"
  ]
 },
 {
  "file": "RfAlg_Model",
  "def": "RfAlg_Model.rf_shift",
  "old": "Some l => rf_list s y l",
  "new": "Some l => match shift_all kd s y l with Done s1 => (s1, Val None) | Raised => (s, Exc) end",
  "edit": "a sum is connected as a sum",
  "breaks": [
   "C107"
  ]
 },
 {
  "file": "RfAlg_Model",
  "def": "RfAlg_Model.rf_shift",
  "old": "Some l => rf_list s y l",
  "new": "Some l => rf_list s y (rev l)",
  "edit": "a sum is taken in reverse order",
  "breaks": [
   "C107"
  ]
 },
 {
  "file": "RfAlg_Model",
  "def": "RfAlg_Model.rf_shift",
  "old": "| VPlain l => rf_list s y l",
  "new": "| VPlain l => match shift_all kd s y l with Done s1 => (s1, Val None) | Raised => (s, Exc) end",
  "edit": "a tuple is connected as a sum",
  "breaks": [
   "C107"
  ]
 },
 {
  "file": "RfAlg_Model",
  "def": "RfAlg_Model.rf_shift",
  "old": "| VPlain l => rf_list s y l",
  "new": "| VPlain l => (s, Exc)",
  "edit": "tuples are refused",
  "breaks": [
   "C107"
  ]
 },
 {
  "file": "RfAlg_Model",
  "def": "RfAlg_Model.rf_shift",
  "old": "shift_net kd s y o with",
  "new": "connect s o y with",
  "edit": "a vector is connected without an identity",
  "breaks": [
   "C107"
  ]
 },
 {
  "file": "RfAlg_Model",
  "def": "RfAlg_Model.rf_shift",
  "old": "shift_net kd s y o with",
  "new": "shift_net kd s (in2 y) o with",
  "edit": "a network goes to the second InPort",
  "breaks": [
   "C107"
  ]
 },
 {
  "file": "RfAlg_Model",
  "def": "RfAlg_Model.rf_shift",
  "old": "Done s1 => (s1, Val None) | Raised => (s, Exc) end\n  end.",
  "new": "Done s1 => (s1, Val (Some y)) | Raised => (s, Exc) end\n  end.",
  "edit": "y << x returns y",
  "breaks": [
   "C107"
  ]
 },
 {
  "file": "RfAlg_Model",
  "def": "RfAlg_Model.rf_chain",
  "old": "| (s1, Val None) => (s1, Exc) ",
  "new": "| (s1, Val None) => rf_shift s1 y v' ",
  "edit": "None << v connects to y",
  "breaks": [
   "C107"
  ]
 },
 {
  "file": "RfAlg_Model",
  "def": "RfAlg_Model.rf_chain",
  "old": "| (s1, Val None) => (s1, Exc) ",
  "new": "| (s1, Val None) => (s, Exc) ",
  "edit": "a failing chain undoes its first connection",
  "breaks": [
   "C107"
  ]
 },
 {
  "file": "RfAlg_Model",
  "def": "RfAlg_Model.rf_statement",
  "old": "Done (s1, v) => rf_shift s1 y v",
  "new": "Done (s1, v) => rf_shift s y v",
  "edit": "the connections of the products are lost",
  "breaks": [
   "C107"
  ]
 }
]