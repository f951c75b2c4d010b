[
{
"file": "Mapper_Model",
"def": "num_cores",
"old": "if n3 then 120 else 128",
"new": "if n3 then 128 else 120",
"edit": "core counts of N2 and N3 swapped",
"breaks": [
"C31"
]
},
{
"file": "Mapper_Model",
"def": "assign1",
"old": "| None => ((S off, (l, off) :: d),",
"new": "| None => ((off, (l, off) :: d),",
"edit": "offset not incremented",
"breaks": [
"C31"
]
},
{
"file": "Mapper_Model",
"def": "assign1",
"old": "((S off, (l, off) :: d), (off / n, off mod n))",
"new": "((S off, d), (off / n, off mod n))",
"edit": "assignment not recorded",
"breaks": [
"C31"
]
},
{
"file": "Mapper_Model",
"def": "assign1",
"old": "(off / n, off mod n))\n",
"new": "(off mod n, off / n))\n",
"edit": "chip and core swapped",
"breaks": [
"C31"
]
},
{
"file": "Mapper_Model",
"def": "assign1",
"old": "| Some v => (s, (v / n, v mod n))",
"new": "| Some v => (s, (off / n, off mod n))",
"edit": "a known logical core gets a new address",
"breaks": [
"C31"
]
},
{
"file": "Mapper_Model",
"def": "assign1",
"old": "((S off, (l, off) :: d), (off / n, off mod n))",
"new": "((S off, (l, off) :: d), (off / n, off mod (n - 1)))",
"edit": "modulus off by one",
"breaks": [
"C31"
]
},
{
"file": "Mapper_Model",
"def": "map_builder",
"old": "assign n (off, []) (resources b)",
"new": "assign n (0, []) (resources b)",
"edit": "every builder starts at core 0",
"breaks": [
"C31"
]
},
{
"file": "Mapper_Model",
"def": "map_builder",
"old": "assign_all n s1 (mappables b)",
"new": "assign_all n (fst s1, []) (mappables b)",
"edit": "the dictionary is cleared before the mappables",
"breaks": [
"C31"
]
},
{
"file": "Mapper_Model",
"def": "mappables",
"old": "some_list (io_ports b) ++ var_models b ++ var_ports b",
"new": "some_list (io_ports b) ++ var_models b",
"edit": "var ports are not mapped",
"breaks": [
"C31"
],
"tightened": [
"mapper_every_address"
]
},
{
"file": "Mapper_Model",
"def": "map_builder",
"old": "(fst s2, (rs, ms))",
"new": "(fst s1, (rs, ms))",
"edit": "offset after the mappables is lost",
"breaks": [
"C31"
]
},
{
"file": "Mapper_Model",
"def": "map_cores_from",
"old": "match map_cores_from off' r with",
"new": "match map_cores_from off r with",
"edit": "the offset is not carried over",
"breaks": [
"C31"
]
}
]