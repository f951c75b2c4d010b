[
{
"file": "Codec_Model",
"def": "nonzero_from",
"old": "if x =? 0 then nonzero_from (k + 1) r else",
"new": "if x =? 0 then nonzero_from k r else",
"edit": "index not advanced over zeros",
"breaks": [
"C37"
]
},
{
"file": "Codec_Model",
"def": "encode_sparse",
"old": "(map snd l, map fst l)",
"new": "(map fst l, map snd l)",
"edit": "data and indices swapped",
"breaks": [
"C37"
]
},
{
"file": "Codec_Model",
"def": "encode_sparse",
"old": "| [] => ([0], [0])",
"new": "| [] => ([1], [0])",
"edit": "empty vector sends a one",
"breaks": [
"C37"
]
},
{
"file": "Codec_Model",
"def": "word",
"old": "w32 (Z.shiftl p3 24) + w32 (Z.shiftl p2 16)",
"new": "w32 (Z.shiftl p2 24) + w32 (Z.shiftl p3 16)",
"edit": "bytes swapped",
"breaks": [
"C37"
]
},
{
"file": "Codec_Model",
"def": "word",
"old": "w32 (Z.shiftl p1 8)",
"new": "w32 (Z.shiftl p1 7)",
"edit": "shift by 7",
"breaks": [
"C37"
]
},
{
"file": "Codec_Model",
"def": "pad",
"old": "repeat 0 (k * ((length l + (k - 1)) / k) - length l)",
"new": "repeat 0 (k * (length l / k) - length l)",
"edit": "incomplete word dropped",
"breaks": [
"C37"
]
},
{
"file": "Codec_Model",
"def": "encode_packed_4",
"old": "(evens packed, odds packed)",
"new": "(odds packed, evens packed)",
"edit": "even and odd words swapped",
"breaks": [
"C37"
]
},
{
"file": "Codec_Model",
"def": "encode_packed_4",
"old": "Z.land x 255",
"new": "Z.land x 127",
"edit": "seven bits",
"breaks": [
"C37"
]
},
{
"file": "Codec_Model",
"def": "entries",
"old": "if 255 <? i then (true, (0, 0) :: (i, x) :: r)",
"new": "if 255 <? i then (true, (i, x) :: r)",
"edit": "no leading zero entry",
"breaks": [
"C37"
]
},
{
"file": "Codec_Model",
"def": "gaps_after",
"old": "(i - p - 1, x)",
"new": "(i - p, x)",
"edit": "gap off by one",
"breaks": [
"C37"
]
},
{
"file": "Codec_Model",
"def": "marker",
"old": "[(255, repeat_data mod 255)]",
"new": "[(255, repeat_data)]",
"edit": "marker count not reduced",
"breaks": [
"C37"
]
},
{
"file": "Codec_Model",
"def": "marker",
"old": "repeat (255, 255) (Z.to_nat num_repeats) ++",
"new": "",
"edit": "repeat markers missing",
"breaks": [
"C37"
]
},
{
"file": "Codec_Model",
"def": "emit",
"old": "emit one_dim l r (i + 1)",
"new": "emit one_dim l r i",
"edit": "entry emitted twice",
"breaks": [
"C37"
]
},
{
"file": "Codec_Model",
"def": "emit",
"old": "map modg (slice i (i + 1) l) ++",
"new": "",
"edit": "entry after the marker missing",
"breaks": [
"C37"
]
},
{
"file": "Codec_Model",
"def": "big_from",
"old": "if 255 <=? g then",
"new": "if 256 <=? g then",
"edit": "gap of 255 without marker",
"breaks": [
"C37"
]
},
{
"file": "Codec_Model",
"def": "decode_byte",
"old": "idx + d * 255",
"new": "idx + d * 256",
"edit": "marker worth 256",
"breaks": [
"C37"
]
},
{
"file": "Codec_Model",
"def": "decode_byte",
"old": "idx + i + (if started then 1 else 0)",
"new": "idx + i",
"edit": "decoder forgets the gap of one",
"breaks": [
"C37"
]
},
{
"file": "Codec_Model",
"def": "decode_word",
"old": "decode_word m true idx1 (Z.shiftr pd 8) (Z.shiftr pi 8)",
"new": "decode_word m true idx1 pd (Z.shiftr pi 8)",
"edit": "data word not shifted",
"breaks": [
"C37"
]
},
{
"file": "Codec_Model",
"def": "decode_words",
"old": "decode_words true idx1 ds is_",
"new": "decode_words true 0 ds is_",
"edit": "index not carried to the next word",
"breaks": [
"C37"
]
}
]