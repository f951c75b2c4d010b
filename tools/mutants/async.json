[
{
"file": "Async_Model",
"def": "async_init",
"old": "{| ts := 1; us := u |}",
"new": "{| ts := 0; us := u |}",
"edit": "time_step starts at 0",
"breaks": [
"C15"
]
},
{
"file": "Async_Model",
"def": "async_body",
"old": "let u2 := run_spk U t u1 in\n  let u3",
"new": "let u2 := u1 in\n  let u3",
"edit": "run_spk is not called",
"breaks": [
"C15"
]
},
{
"file": "Async_Model",
"def": "async_body",
"old": "let u3 := if post_guard U t u2 then run_post U t u2 else u2 in",
"new": "let u3 := u2 in",
"edit": "run_post_mgmt is not called",
"breaks": [
"C15"
]
},
{
"file": "Async_Model",
"def": "async_body",
"old": "{| ts := t + 1; us := u3 |}",
"new": "{| ts := t + 2; us := u3 |}",
"edit": "time_step advances by two",
"breaks": [
"C15"
]
},
{
"file": "Async_Model",
"def": "async_run",
"old": "| AR_end s : ts s = n + 1",
"new": "| AR_end s : ts s = n",
"edit": "the loop ends one step early",
"breaks": [
"C15"
]
},
{
"file": "Async_Model",
"def": "async_body",
"old": "let u1 := if pre_guard U t u0 then run_pre U t u0 else u0 in",
"new": "let u1 := u0 in",
"edit": "run_pre_mgmt is not called",
"breaks": [
"C15"
]
},
{
"file": "Async_Model",
"def": "loihi_step",
"old": "let u1 := run_spk U t (us s) in",
"new": "let u1 := run_spk U (ts s) (us s) in",
"edit": "time_step not incremented before run_spk",
"breaks": [
"C15"
]
}
]