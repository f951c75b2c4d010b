[
{
"file": "Conn_Model",
"def": "as_bool",
"old": "if x =? 0 then 0 else 1",
"new": "if 0 <? x then 1 else 0",
"edit": "negative spikes are not spikes",
"breaks": [
"C40"
]
},
{
"file": "Conn_Model",
"def": "mat_dot",
"old": "zsum (map2 Z.mul row s)",
"new": "zsum (map2 Z.add row s)",
"edit": "sum instead of product",
"breaks": [
"C40"
]
},
{
"file": "Conn_Model",
"def": "mat_cols",
"old": "filter (fun p => negb (snd p =? 0))",
"new": "filter (fun p => snd p =? 0)",
"edit": "weights of silent inputs",
"breaks": [
"C40"
]
},
{
"file": "Conn_Model",
"def": "accumulate",
"old": "if 0 <? num_message_bits then mat_dot w s else mat_cols w s",
"new": "mat_dot w s",
"edit": "graded even if binary",
"breaks": [
"C40"
]
},
{
"file": "Conn_Model",
"def": "dense_step",
"old": "(buf, accumulate bits w s)",
"new": "(accumulate bits w s, accumulate bits w s)",
"edit": "no delay",
"breaks": [
"C40"
]
},
{
"file": "Conn_Model",
"def": "np_shift",
"old": "if 0 <? e then Z.shiftl a e else Z.shiftr a (- e)",
"new": "if 0 <? e then Z.shiftr a e else Z.shiftl a (- e)",
"edit": "exponent inverted",
"breaks": [
"C40"
]
},
{
"file": "Conn_Model",
"def": "prepare_weights",
"old": "truncate m (num_weight_bits p) 8 (clip_weight m 8 false x)",
"new": "clip_weight m 8 false x",
"edit": "weights not truncated",
"breaks": [
"C60"
]
},
{
"file": "Conn_Model",
"def": "prepare_weights",
"old": "truncate m (num_weight_bits p) 8 (clip_weight m 8 false x)",
"new": "truncate m (num_weight_bits p) 8 x",
"edit": "weights not clipped",
"breaks": [
"C60"
]
},
{
"file": "Conn_Model",
"def": "bitacc_step",
"old": "if weights_set st then weights st else",
"new": "if negb (weights_set st) then weights st else",
"edit": "prepared one step late",
"breaks": [
"C40",
"C60"
]
},
{
"file": "Conn_Model",
"def": "bitacc_step",
"old": "{| weights := w; weights_set := true;",
"new": "{| weights := weights st; weights_set := true;",
"edit": "prepared weights not stored",
"breaks": [
"C40",
"C60"
]
},
{
"file": "Conn_Model",
"def": "bitacc_step",
"old": "(map w32 (a_buff st),",
"new": "(map w32 (map (np_shift (weight_exp p)) (accumulate (message_bits p) w s)),",
"edit": "no delay",
"breaks": [
"C40"
]
},
{
"file": "Conn_Model",
"def": "delay_rows",
"old": "if Nat.eqb dk k then x else 0",
"new": "if Nat.leb dk k then x else 0",
"edit": "delays cumulative",
"breaks": [
"C40"
]
},
{
"file": "Conn_Model",
"def": "delay_wgts",
"old": "flat_map (delay_rows w d) (seq 0 (maxd + 1))",
"new": "flat_map (delay_rows w d) (seq 0 maxd)",
"edit": "largest delay dropped",
"breaks": [
"C40"
]
},
{
"file": "Conn_Model",
"def": "delay_wgts_sparse",
"old": "flat_map (delay_rows w d) (seq 1 maxd)",
"new": "flat_map (delay_rows w d) (seq 1 (maxd - 1))",
"edit": "sparse: largest delay dropped",
"breaks": [
"C40"
]
},
{
"file": "Conn_Model",
"def": "delay_rows_zero",
"old": "if negb (Nat.eqb dk 0) then 0 else x",
"new": "x",
"edit": "sparse: delayed weights also immediate",
"breaks": [
"C40"
]
},
{
"file": "Conn_Model",
"def": "calc_act",
"old": "nth (k * n + i) sums 0",
"new": "nth (i * (maxd + 1) + k) sums 0",
"edit": "not transposed",
"breaks": [
"C40"
]
},
{
"file": "Conn_Model",
"def": "zero_col0",
"old": "if Nat.eqb (fst p mod c) 0 then 0 else snd p",
"new": "snd p",
"edit": "column 0 not cleared",
"breaks": [
"C40"
]
},
{
"file": "Conn_Model",
"def": "roll_left",
"old": "r ++ [x]",
"new": "x :: r",
"edit": "buffer not rolled",
"breaks": [
"C40"
]
},
{
"file": "Conn_Model",
"def": "add_in",
"old": "wr (a + b)",
"new": "wr b",
"edit": "pending activations overwritten",
"breaks": [
"C40"
]
},
{
"file": "Conn_Model",
"def": "col0",
"old": "nth (i * c) l 0",
"new": "nth (i * c + 1) l 0",
"edit": "column 1 is sent",
"breaks": [
"C40"
]
},
{
"file": "Conn_Model",
"def": "buffer_delay",
"old": "if Nat.eqb user_max 0 then nat_max (concat d) else user_max",
"new": "user_max",
"edit": "buffer of the given size only",
"breaks": [
"C40"
]
},
{
"file": "Conn_Model",
"def": "conv_time_act",
"old": "nth (length w - k - 1) w []",
"new": "nth k w []",
"edit": "kernel not flipped in time",
"breaks": [
"C40"
]
}
]