[
{
"file": "Selector_Model",
"def": "T_probe",
"old": "(TProbed (0 <? q i))",
"new": "(TProbed (q i =? 0))",
"edit": "not_empty negated",
"breaks": [
"C05"
]
},
{
"file": "Selector_Model",
"def": "T_test",
"old": "(if o i && negb ne then TTested else TIdle)",
"new": "(if o i && ne then TTested else TIdle)",
"edit": "notifies only if the queue was not empty",
"breaks": [
"C05"
]
},
{
"file": "Selector_Model",
"def": "T_test",
"old": "(if o i && negb ne then TTested else TIdle)",
"new": "TIdle",
"edit": "never notifies",
"breaks": [
"C05"
]
},
{
"file": "Selector_Model",
"def": "T_notify",
"old": "(match s with Waiting => Woken | _ => s end)",
"new": "s",
"edit": "notify_all wakes nobody",
"breaks": [
"C05"
]
},
{
"file": "Selector_Model",
"def": "T_notify",
"old": "(s = Out \\/ s = Waiting \\/ s = Woken)",
"new": "True",
"edit": "_changed does not take the lock",
"breaks": [
"C05"
]
},
{
"file": "Selector_Model",
"def": "L_set",
"old": "(mks t q h (fupd o k true) (SetObs (S k)))",
"new": "(mks t q h (if k =? 0 then fupd o k true else o) (SetObs (S k)))",
"edit": "only the first channel gets an observer",
"breaks": [
"C05"
]
},
{
"file": "Selector_Model",
"def": "L_set_end",
"old": "lstep (mks t q h o (SetObs n)) None (mks t q h o (Scan 0))",
"new": "lstep (mks t q h o (SetObs n)) None (mks t q h o Waiting)",
"edit": "select waits before the first scan",
"breaks": [
"C05"
]
},
{
"file": "Selector_Model",
"def": "L_probe_no",
"old": "k < n -> q k = 0 ->",
"new": "k < n ->",
"edit": "a ready channel may be skipped",
"breaks": [
"C05"
]
},
{
"file": "Selector_Model",
"def": "L_probe_yes",
"old": "k < n -> 0 < q k ->",
"new": "k < n ->",
"edit": "a channel without data is selected",
"breaks": [
"C05"
]
},
{
"file": "Selector_Model",
"def": "L_probe_yes",
"old": "(mks t q h o (Clear k 0))",
"new": "(mks t q h o (Clear 0 0))",
"edit": "the first action is always returned",
"breaks": [
"C05"
]
},
{
"file": "Selector_Model",
"def": "L_wake",
"old": "lstep (mks t q h o Woken) None (mks t q h o (Scan 0))",
"new": "lstep (mks t q h o Woken) None (mks t q h o (Scan (n - 1)))",
"edit": "after a wake-up only the last channel is scanned",
"breaks": [
"C05"
]
},
{
"file": "Selector_Model",
"def": "L_wake",
"old": "lstep (mks t q h o Woken) None (mks t q h o (Scan 0))",
"new": "lstep (mks t q h o Woken) None (mks t q h o Out)",
"edit": "select returns without result after a wake-up",
"breaks": [
"C05"
]
},
{
"file": "Selector_Model",
"def": "L_ret",
"old": "(Some (EvSelected r)) (mks t q h o Out)",
"new": "(Some (EvSelected r)) (mks t (fupd q r 0) h o Out)",
"edit": "select consumes the messages of the selected channel",
"breaks": [
"C05"
]
},
{
"file": "Selector_Model",
"def": "L_clear",
"old": "(mks t q h (fupd o k false) (Clear r (S k)))",
"new": "(mks t q h o (Clear r (S k)))",
"edit": "observers are not cleared",
"breaks": [
"C05"
]
},
{
"file": "Selector_Model",
"def": "T_put",
"old": "(mks t (fupd q i (S (q i))) (fupd h i (TPut ne)) o s)",
"new": "(mks t q (fupd h i (TPut ne)) o s)",
"edit": "the token is not queued",
"breaks": [
"C05"
]
}
]