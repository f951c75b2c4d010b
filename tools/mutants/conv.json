[
{
"file": "Conv_Model",
"def": "out_dim",
"old": "d * (k - 1) - 1) / s + 1",
"new": "d * k - 1) / s + 1",
"edit": "kernel extent off by one",
"breaks": [
"C41"
]
},
{
"file": "Conv_Model",
"def": "out_dim",
"old": "n + 2 * p -",
"new": "n + p -",
"edit": "padding on one side",
"breaks": [
"C41"
]
},
{
"file": "Conv_Model",
"def": "out_dim",
"old": "if v <? 1 then None",
"new": "if v <? 0 then None",
"edit": "zero output accepted",
"breaks": [
"C41"
]
},
{
"file": "Conv_Model",
"def": "padded",
"old": "(x <? px + nx)",
"new": "(x <=? px + nx)",
"edit": "padding boundary",
"breaks": [
"C41"
]
},
{
"file": "Conv_Model",
"def": "dilated",
"old": "w (a / dx)%nat (b / dy)%nat",
"new": "w a b",
"edit": "dilation not divided",
"breaks": [
"C41"
]
},
{
"file": "Conv_Model",
"def": "convolve2d",
"old": "im (x + (ka - 1 - a))%nat",
"new": "im (x + a)%nat",
"edit": "correlation instead of convolution",
"breaks": [
"C41"
]
},
{
"file": "Conv_Model",
"def": "conv_scipy",
"old": "(x * sx p) (y * sy p)",
"new": "x y",
"edit": "stride ignored",
"breaks": [
"C41"
]
},
{
"file": "Conv_Model",
"def": "conv_scipy",
"old": "inp a b (c + g * c_grp)",
"new": "inp a b c",
"edit": "input channel of the group wrong",
"breaks": [
"C41"
]
},
{
"file": "Conv_Model",
"def": "conv_scipy",
"old": "w (k + g * k_grp)%nat a b c",
"new": "w k a b c",
"edit": "kernel of the group wrong",
"breaks": [
"C41"
]
},
{
"file": "Conv_Model",
"def": "branch",
"old": "src_id := fun x y c => (x * i1 * i2 + y * i2 + c)%nat",
"new": "src_id := fun x y c => (x * i1 * i2 + y * i1 + c)%nat",
"edit": "source id stride",
"breaks": [
"C41"
]
},
{
"file": "Conv_Model",
"def": "branch",
"old": "dst_id := fun x y c => (x * o1 * o2 + y * o2 + c)%nat",
"new": "dst_id := fun x y c => (x * o1 * o2 + y * i2 + c)%nat",
"edit": "destination id stride",
"breaks": [
"C41"
]
},
{
"file": "Conv_Model",
"def": "tap_x",
"old": "Z.of_nat (a * dilx g) - Z.of_nat (padx g)",
"new": "Z.of_nat (a * dilx g) + Z.of_nat (padx g)",
"edit": "padding sign",
"breaks": [
"C41"
]
},
{
"file": "Conv_Model",
"def": "tap_y",
"old": "Z.of_nat (y * sty g)",
"new": "Z.of_nat (y * stx g)",
"edit": "strides mixed up",
"breaks": [
"C41"
]
},
{
"file": "Conv_Model",
"def": "valid",
"old": "(tap_x g x a <? Z.of_nat (xin g))",
"new": "(tap_x g x a <=? Z.of_nat (xin g))",
"edit": "boundary tap accepted",
"breaks": [
"C41"
]
},
{
"file": "Conv_Model",
"def": "channels",
"old": "(k + grp * (n / group))%nat",
"new": "(k + grp)%nat",
"edit": "group offset",
"breaks": [
"C41"
]
},
{
"file": "Conv_Model",
"def": "wgts",
"old": "(cx g - a - 1)%nat (cy g - b - 1)%nat l",
"new": "a b l",
"edit": "kernel not flipped",
"breaks": [
"C41"
]
},
{
"file": "Conv_Model",
"def": "conv_to_sparse",
"old": "Some (dsts g group, srcs g group, wgts g group)",
"new": "Some (srcs g group, dsts g group, wgts g group)",
"edit": "transposed matrix",
"breaks": [
"C41"
]
},
{
"file": "Conv_Model",
"def": "conv_to_sparse",
"old": "(cin g mod group =? 0) && (cout g mod group =? 0)",
"new": "(cin g mod group =? 0)",
"edit": "divisibility of output channels not checked",
"breaks": [
"C41"
]
}
]