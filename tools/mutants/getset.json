[
{
"file": "GetSet_Model",
"def": "get_items",
"old": "| VArr data _ => Some data",
"new": "| VArr data _ => Some (rev data)",
"edit": "_get_var sends an array in reverse order",
"breaks": [
"C13"
]
},
{
"file": "GetSet_Model",
"def": "find_var",
"old": "if i =? vid then Some v else find_var vid r",
"new": "Some v",
"edit": "_get_var ignores the variable id",
"breaks": [
"C13"
]
},
{
"file": "GetSet_Model",
"def": "put_var",
"old": "if i =? vid then (i, v) :: r else (i, w) :: put_var vid v r",
"new": "(i, v) :: put_var vid v r",
"edit": "_set_var writes every variable",
"breaks": [
"C13"
]
},
{
"file": "GetSet_Model",
"def": "write_at",
"old": "| p :: ps, x :: r => write_at (upd data p x) ps r",
"new": "| p :: ps, x :: r => upd data p x",
"edit": "only the first item is written",
"breaks": [
"C13",
"C14"
]
},
{
"file": "GetSet_Model",
"def": "takes",
"old": "else Nat.min (Z.to_nat n) (length perm)",
"new": "else Nat.min (Z.to_nat n - 1) (length perm)",
"edit": "one item too few is read",
"breaks": [
"C13"
]
},
{
"file": "GetSet_Model",
"def": "pitems",
"old": "if (length got <? takes v n)%nat then PSetI",
"new": "if (length got <=? takes v n)%nat then PSetI",
"edit": "one item too many is awaited",
"breaks": [
"C13"
]
},
{
"file": "GetSet_Model",
"def": "pact",
"old": "| PDone m => Snd o SET_COMPLETE (PIdle m)",
"new": "| PDone m => Tau (PIdle m)",
"edit": "SET_COMPLETE is not sent",
"breaks": [
"C13"
]
},
{
"file": "GetSet_Model",
"def": "pact",
"old": "PSending (Z.of_nat (length xs) :: xs) m",
"new": "PSending xs m",
"edit": "the number of items is not sent",
"breaks": [
"C13"
]
},
{
"file": "GetSet_Model",
"def": "index",
"old": "option_map S (index x r)",
"new": "index x r",
"edit": "model_ids.index off by one",
"breaks": [
"C13"
]
},
{
"file": "GetSet_Model",
"def": "sact",
"old": "| SGetR g (S k) => Rcv (pi g) (fun x => SGetS g k x)",
"new": "| SGetR g (S k) => Rcv (pi g) (fun x => SGetS g (k - 1) x)",
"edit": "the relay skips items",
"breaks": [
"C13"
]
},
{
"file": "GetSet_Model",
"def": "sact",
"old": "| SSetN g => Rcv ri (fun n => SSetS g (Z.to_nat n) n)",
"new": "| SSetN g => Rcv ri (fun n => SSetS g (Z.to_nat n - 1) n)",
"edit": "the set relay forwards one item too few",
"breaks": [
"C13"
]
},
{
"file": "GetSet_Model",
"def": "sact",
"old": "| SRspS x => Snd ro x SIdle",
"new": "| SRspS x => Snd ro ERROR SIdle",
"edit": "the response of the process is replaced",
"breaks": [
"C13"
]
},
{
"file": "GetSet_Model",
"def": "pad",
"old": "xs ++ repeat 0 (size - length xs)",
"new": "repeat 0 (size - length xs) ++ xs",
"edit": "items are stored at the end of the buffer",
"breaks": [
"C13",
"C14"
],
"tightened": [
"getset_exact_partial"
]
},
{
"file": "GetSet_Model",
"def": "cact",
"old": "(CNum k size rs res)\n  | CSend k [] None",
"new": "(CNum k 0 rs res)\n  | CSend k [] None",
"edit": "get_var allocates an empty buffer",
"breaks": [
"C13"
]
},
{
"file": "GetSet_Model",
"def": "cact",
"old": "([SET_DATA; v_mid v; vid; Z.of_nat (length xs)] ++ xs)",
"new": "([SET_DATA; vid; v_mid v; Z.of_nat (length xs)] ++ xs)",
"edit": "set_var swaps model id and variable id",
"breaks": [
"C13"
]
},
{
"file": "GetSet_Model",
"def": "csr_store",
"old": "Some (VCsr (combine (map fst (nonzero es)) xs))",
"new": "Some (VCsr (combine (map fst es) xs))",
"edit": "set of a sparse matrix keeps the positions of stored zeros",
"breaks": [
"C14"
],
"tightened": [
"getset_exact_partial"
]
},
{
"file": "GetSet_Model",
"def": "store",
"old": "if forallb is_ascii xs then Some (VStr xs) else None",
"new": "if forallb is_ascii xs then Some (VStr (removelast xs)) else None",
"edit": "the last character of a string is dropped",
"breaks": [
"C14"
]
},
{
"file": "GetSet_Model",
"def": "store",
"old": "| VInt _ => match xs with x :: _ => Some (VInt x) | [] => None end",
"new": "| VInt z => match xs with x :: _ => Some (VInt z) | [] => None end",
"edit": "_set_var of an int does not assign",
"breaks": [
"C13",
"C14"
]
}
]