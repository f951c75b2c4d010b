[
 {
  "file": "ConvProc_Model",
  "def": "ConvProc_Model.to_int8",
  "old": "(z + 128) mod 256 - 128",
  "new": "z",
  "edit": "groups is kept as int64",
  "breaks": [
   "C105"
  ]
 },
 {
  "file": "ConvProc_Model",
  "def": "ConvProc_Model.to_int8",
  "old": "(z + 128) mod 256 - 128",
  "new": "z mod 256",
  "edit": "groups is kept as uint8",
  "breaks": [
   "C105"
  ]
 },
 {
  "file": "ConvProc_Model",
  "def": "ConvProc_Model.divides",
  "old": "if y =? 0 then true else",
  "new": "if y =? 0 then false else",
  "edit": "a remainder by 0 counts as an error",
  "breaks": [
   "C105"
  ]
 },
 {
  "file": "ConvProc_Model",
  "def": "ConvProc_Model.divides",
  "old": "x mod y =? 0.",
  "new": "y mod x =? 0.",
  "edit": "divisibility checked the other way round",
  "breaks": [
   "C105"
  ]
 },
 {
  "file": "ConvProc_Model",
  "def": "ConvProc_Model.out_shape",
  "old": "  else if negb (Nat.eqb (nc p mod groups p) 0) then None\n",
  "new": "",
  "edit": "the input channels are not checked against groups",
  "breaks": [
   "C105"
  ]
 },
 {
  "file": "ConvProc_Model",
  "def": "ConvProc_Model.out_shape",
  "old": "  else if negb (Nat.eqb (nk p mod groups p) 0) then None\n",
  "new": "",
  "edit": "the output channels are not checked against groups",
  "breaks": [
   "C105"
  ]
 },
 {
  "file": "ConvProc_Model",
  "def": "ConvProc_Model.out_shape",
  "old": "if Nat.eqb (sx p) 0 || Nat.eqb (sy p) 0 then None",
  "new": "if Nat.eqb (sx p) 0 then None",
  "edit": "a stride of 0 in y is accepted",
  "breaks": [
   "C105"
  ]
 },
 {
  "file": "ConvProc_Model",
  "def": "ConvProc_Model.out_shape",
  "old": "Some (Z.to_nat x, Z.to_nat y, nk p)",
  "new": "Some (Z.to_nat y, Z.to_nat x, nk p)",
  "edit": "the output shape has x and y exchanged",
  "breaks": [
   "C105"
  ]
 },
 {
  "file": "ConvProc_Model",
  "def": "ConvProc_Model.out_shape",
  "old": "Some (Z.to_nat x, Z.to_nat y, nk p)",
  "new": "Some (Z.to_nat x, Z.to_nat y, nc p)",
  "edit": "the output has the input's channels",
  "breaks": [
   "C105"
  ]
 },
 {
  "file": "ConvProc_Model",
  "def": "ConvProc_Model.out_shape",
  "old": "(Z.of_nat (ny p)) (Z.of_nat (ky p)) (Z.of_nat (sy p)) (Z.of_nat (py p)) (Z.of_nat (dy p))",
  "new": "(Z.of_nat (ny p)) (Z.of_nat (ky p)) (Z.of_nat (sy p)) (Z.of_nat (px p)) (Z.of_nat (dy p))",
  "edit": "the height of the output uses the padding in x",
  "breaks": [
   "C105"
  ]
 },
 {
  "file": "ConvProc_Model",
  "def": "ConvProc_Model.out_shape",
  "old": "(Z.of_nat (nx p)) (Z.of_nat (kx p)) (Z.of_nat (sx p)) (Z.of_nat (px p)) (Z.of_nat (dx p))",
  "new": "(Z.of_nat (nx p)) (Z.of_nat (kx p)) (Z.of_nat (sx p)) (Z.of_nat (px p)) 1",
  "edit": "the width of the output ignores the dilation",
  "breaks": [
   "C105"
  ]
 },
 {
  "file": "ConvProc_Model",
  "def": "ConvProc_Model.with_groups",
  "old": "px := px p; py := py p; dx := dx p; dy := dy p; groups := g",
  "new": "px := 0; py := 0; dx := dx p; dy := dy p; groups := g",
  "edit": "the step's convolution does not pad",
  "breaks": [
   "C105"
  ]
 },
 {
  "file": "ConvProc_Model",
  "def": "ConvProc_Model.with_groups",
  "old": "sx := sx p; sy := sy p;\n     px",
  "new": "sx := sy p; sy := sx p;\n     px",
  "edit": "the step's convolution exchanges the strides",
  "breaks": [
   "C105"
  ]
 },
 {
  "file": "ConvProc_Model",
  "def": "ConvProc_Model.conv_step",
  "old": "  else if negb (divides g (Z.of_nat (nc p))) then None\n",
  "new": "",
  "edit": "the step does not check the input channels",
  "breaks": [
   "C105"
  ]
 },
 {
  "file": "ConvProc_Model",
  "def": "ConvProc_Model.conv_step",
  "old": "else if g <=? 0 then Some (fun _ _ _ => 0) ",
  "new": "else if g <=? 0 then None ",
  "edit": "a number of groups that is not positive raises",
  "breaks": [
   "C105"
  ]
 },
 {
  "file": "ConvProc_Model",
  "def": "ConvProc_Model.conv_step",
  "old": "if Nat.ltb (wc c) (nc p / Z.to_nat g) && Nat.ltb 0 (nk p / Z.to_nat g) then None",
  "new": "if Nat.eqb (wc c) 0 then None",
  "edit": "missing channels of the weights are not noticed",
  "breaks": [
   "C105"
  ]
 },
 {
  "file": "ConvProc_Model",
  "def": "ConvProc_Model.conv_step",
  "old": "if Nat.ltb (wc c) (nc p / Z.to_nat g) &&",
  "new": "if negb (Nat.eqb (wc c) (nc p / Z.to_nat g)) &&",
  "edit": "more channels of the weights raise",
  "breaks": [
   "C105"
  ]
 },
 {
  "file": "ConvProc_Model",
  "def": "ConvProc_Model.conv_step",
  "old": "conv_scipy (with_groups p (Z.to_nat g)) (wgt c) inp x y ch",
  "new": "conv_scipy (with_groups p 1) (wgt c) inp x y ch",
  "edit": "the groups are ignored",
  "breaks": [
   "C105"
  ]
 },
 {
  "file": "ConvProc_Model",
  "def": "ConvProc_Model.conv_step",
  "old": "conv_scipy (with_groups p (Z.to_nat g)) (wgt c) inp x y ch",
  "new": "2 ^ exp_of_weights c * conv_scipy (with_groups p (Z.to_nat g)) (wgt c) inp x y ch",
  "edit": "the weight exponent is applied",
  "breaks": [
   "C105"
  ]
 },
 {
  "file": "ConvProc_Model",
  "def": "ConvProc_Model.conv_step",
  "old": "(wgt c) inp x y ch)",
  "new": "(wgt c) inp y x ch)",
  "edit": "the output is transposed",
  "breaks": [
   "C105"
  ]
 },
 {
  "file": "ConvProc_Model",
  "def": "ConvProc_Model.to_int32",
  "old": "if (- 2 ^ 31 <=? z) && (z <? 2 ^ 31) then z else - 2 ^ 31",
  "new": "z",
  "edit": "the result is kept as int64",
  "breaks": [
   "C105"
  ]
 },
 {
  "file": "ConvProc_Model",
  "def": "ConvProc_Model.to_int32",
  "old": "(z <? 2 ^ 31) then z else - 2 ^ 31",
  "new": "(z <? 2 ^ 15) then z else - 2 ^ 31",
  "edit": "the result is kept as int16",
  "breaks": [
   "C105"
  ]
 },
 {
  "file": "ConvProc_Model",
  "def": "ConvProc_Model.precision",
  "old": "signed_clamp (to_int32 z) 24",
  "new": "signed_clamp (to_int32 z) 23",
  "edit": "values are taken to 23 bits",
  "breaks": [
   "C105"
  ]
 },
 {
  "file": "ConvProc_Model",
  "def": "ConvProc_Model.precision",
  "old": "signed_clamp (to_int32 z) 24",
  "new": "to_int32 z",
  "edit": "clamp_precision is not called",
  "breaks": [
   "C105"
  ]
 },
 {
  "file": "ConvProc_Model",
  "def": "ConvProc_Model.precision",
  "old": "signed_clamp (to_int32 z) 24",
  "new": "Z.max (- 2 ^ 23) (Z.min (2 ^ 23 - 1) z)",
  "edit": "values are clamped at the limits",
  "breaks": [
   "C105"
  ]
 },
 {
  "file": "ConvProc_Model",
  "def": "ConvProc_Model.precision",
  "old": "if fixed c then",
  "new": "if negb (fixed c) then",
  "edit": "the two models' precision exchanged",
  "breaks": [
   "C105"
  ]
 },
 {
  "file": "ConvProc_Model",
  "def": "ConvProc_Model.received",
  "old": "if 0 <? num_message_bits c then",
  "new": "if 0 <=? num_message_bits c then",
  "edit": "without message bits the values are used",
  "breaks": [
   "C105"
  ]
 },
 {
  "file": "ConvProc_Model",
  "def": "ConvProc_Model.received",
  "old": "if inp x y ch =? 0 then 0 else 1",
  "new": "if 0 <? inp x y ch then 1 else 0",
  "edit": "negative values count as no spike",
  "breaks": [
   "C105"
  ]
 },
 {
  "file": "ConvProc_Model",
  "def": "ConvProc_Model.run_conv",
  "old": "| None => ([buf], true)",
  "new": "| None => ([], true)",
  "edit": "nothing is sent in a step that raises",
  "breaks": [
   "C105"
  ]
 },
 {
  "file": "ConvProc_Model",
  "def": "ConvProc_Model.run_conv",
  "old": "(buf :: l, e)",
  "new": "((fun x y ch => precision c (o x y ch)) :: l, e)",
  "edit": "the convolution is sent in the same step",
  "breaks": [
   "C105"
  ]
 },
 {
  "file": "ConvProc_Model",
  "def": "ConvProc_Model.run_conv",
  "old": "run_conv c (fun x y ch => precision c (o x y ch)) ins' in",
  "new": "run_conv c (fun x y ch => buf x y ch + precision c (o x y ch)) ins' in",
  "edit": "the buffer accumulates",
  "breaks": [
   "C105"
  ]
 },
 {
  "file": "ConvProc_Model",
  "def": "ConvProc_Model.run_conv",
  "old": "run_conv c (fun x y ch => precision c (o x y ch)) ins' in",
  "new": "run_conv c o ins' in",
  "edit": "the precision is not applied",
  "breaks": [
   "C105"
  ]
 },
 {
  "file": "ConvProc_Model",
  "def": "ConvProc_Model.run_conv",
  "old": "conv_step c (received c i) with",
  "new": "conv_step c i with",
  "edit": "spikes are not made bool",
  "breaks": [
   "C105"
  ]
 },
 {
  "file": "ConvProc_Model",
  "def": "ConvProc_Model.run_proc",
  "old": "run_conv c (fun _ _ _ => 0) ins",
  "new": "run_conv c (fun _ _ _ => 1) ins",
  "edit": "the buffer starts with ones",
  "breaks": [
   "C105"
  ]
 }
]