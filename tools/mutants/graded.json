[
{
"file": "Graded_Model",
"def": "above",
"old": "if vth <? wrap wd (Z.abs v) then v else 0",
"new": "if vth <=? wrap wd (Z.abs v) then v else 0",
"edit": "threshold is inclusive",
"breaks": [
"C70",
"C71"
]
},
{
"file": "Graded_Model",
"def": "above",
"old": "if vth <? wrap wd (Z.abs v) then v else 0",
"new": "if vth <? v then v else 0",
"edit": "negative values below -vth are dropped",
"breaks": [
"C70",
"C71"
]
},
{
"file": "Graded_Model",
"def": "graded_step",
"old": "(map (fun x => above 32 vth (w32 x)) (map2 Z.add v a), map (fun _ => 0) v)",
"new": "(map (fun x => above 32 vth (w32 x)) (map2 Z.add v a), map2 Z.add v a)",
"edit": "v is not cleared",
"breaks": [
"C70"
]
},
{
"file": "Graded_Model",
"def": "relu_step",
"old": "if vth <? w32 x then w32 x else 0",
"new": "if vth <? w32 (Z.abs x) then w32 x else 0",
"edit": "relu forwards negative values",
"breaks": [
"C70"
]
},
{
"file": "Graded_Model",
"def": "product",
"old": "Z.shiftr (wrap wd (a * b)) exp",
"new": "wrap wd (a * b)",
"edit": "product not scaled",
"breaks": [
"C71"
]
},
{
"file": "Graded_Model",
"def": "product",
"old": "Z.shiftr (wrap wd (a * b)) exp",
"new": "wrap wd (Z.shiftr a exp * b)",
"edit": "one factor scaled instead of the product",
"breaks": [
"C71"
]
},
{
"file": "Graded_Model",
"def": "norm_step",
"old": "map (fun q => w32 (q * q)) x",
"new": "map (fun q => w32 (q * q)) v",
"edit": "squares of the held vector are sent",
"breaks": [
"C73"
]
},
{
"file": "Graded_Model",
"def": "norm_step",
"old": "(map (above 32 vth) (map2 (fun p q => w32 (p * q)) v y)",
"new": "(map (above 32 vth) (map2 (fun p q => w32 (p * q)) x y)",
"edit": "the vector is not delayed",
"breaks": [
"C73"
]
},
{
"file": "Graded_Model",
"def": "norm_step",
"old": "(fun q => w32 (q * q)) x, x)",
"new": "(fun q => w32 (q * q)) x, v)",
"edit": "the held vector is never updated",
"breaks": [
"C73"
]
},
{
"file": "Graded_Model",
"def": "table_entry",
"old": "3 * fp - (23 - k)",
"new": "3 * fp - (24 - k)",
"edit": "table off by one octave",
"breaks": [
"C74"
]
},
{
"file": "Graded_Model",
"def": "table_entry",
"old": "2 * Z.sqrt",
"new": "Z.sqrt",
"edit": "table holds y instead of Y",
"breaks": [
"C74"
]
},
{
"file": "Graded_Model",
"def": "clz",
"old": "24 - (Z.log2 s + 1)",
"new": "24 - (Z.log2 s + 2)",
"edit": "clz off by one",
"breaks": [
"C74"
]
},
{
"file": "Graded_Model",
"def": "iterate",
"old": "iterate m fp b' Y' (Z.shiftr (y * Y') (fp + 1))",
"new": "iterate m fp b' Y' (Z.shiftr (y * Y') fp)",
"edit": "result shifted by fp",
"breaks": [
"C74"
]
},
{
"file": "Graded_Model",
"def": "iterate",
"old": "Z.shiftl 3 fp - b'",
"new": "Z.shiftl 2 fp - b'",
"edit": "Newton constant 2",
"breaks": [
"C74"
]
},
{
"file": "Graded_Model",
"def": "inv_step",
"old": "inv_sqrt 5 12 a",
"new": "inv_sqrt 2 12 a",
"edit": "two iterations only",
"breaks": [
"C74"
]
},
{
"file": "Graded_Model",
"def": "inv_step",
"old": "if a =? 0 then 0 else",
"new": "if a =? 0 then 1 else",
"edit": "zero mapped to one",
"breaks": [
"C74"
]
},
{
"file": "Graded_Model",
"def": "eye",
"old": "if Nat.eqb i j then x else 0",
"new": "if Nat.eqb i 0 then x else 0",
"edit": "identity weights in the first row only",
"breaks": [
"C72",
"C75"
]
},
{
"file": "Graded_Model",
"def": "graded_conn",
"old": "Conn_Model.weight_exp := -7",
"new": "Conn_Model.weight_exp := -6",
"edit": "weight exponent",
"breaks": [
"C72",
"C71",
"C75"
]
},
{
"file": "Graded_Model",
"def": "mul_step",
"old": "bitacc_step graded_conn cb (snd x)",
"new": "bitacc_step graded_conn cb (fst x)",
"edit": "a * a instead of a * b",
"breaks": [
"C71"
]
},
{
"file": "Graded_Model",
"def": "get_data",
"old": "Z.shiftr (w32 (Z.shiftl (w32 x) 8)) 8",
"new": "Z.shiftr (w32 (Z.shiftl (w32 x) 8)) 7",
"edit": "wrong shift back",
"breaks": [
"C75"
]
},
{
"file": "Graded_Model",
"def": "get_data",
"old": "Z.shiftr (w32 (Z.shiftl (w32 x) 8)) 8",
"new": "w32 x",
"edit": "no sign extension from 24 bits",
"breaks": [
"C75"
]
},
{
"file": "Graded_Model",
"def": "input_vec",
"old": "x * 2 ^ exp) vec in",
"new": "x * 2 * exp) vec in",
"edit": "2 * exp instead of 2 ** exp",
"breaks": [
"C75"
]
},
{
"file": "Graded_Model",
"def": "net_step",
"old": "bitacc_step sum_conn (from_inv s) (map f c)",
"new": "bitacc_step sum_conn (from_inv s) c",
"edit": "the inverse square root is skipped",
"breaks": [
"C73"
]
},
{
"file": "Conn_Model",
"def": "in_acc",
"old": "if 0 <? message_bits p then wrap (acc_bits p) x else x",
"new": "wrap (acc_bits p) x",
"edit": "binary messages accumulated in int32",
"breaks": [
"C40"
]
}
]