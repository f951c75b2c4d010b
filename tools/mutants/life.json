[
 {
  "file": "Life_Model",
  "def": "sstep",
  "old": "sstep s {| pc := SRun n (cur + 1); inq := inq s; outq := outq s; steps := steps s + 1 |}",
  "new": "sstep s {| pc := SRun n (cur + 1); inq := inq s; outq := outq s; steps := steps s + 2 |}",
  "edit": "a time step counted twice",
  "breaks": [
   "C85"
  ]
 },
 {
  "file": "Life_Model",
  "def": "sstep",
  "old": "| s_done s n : pc s = SRun n n ->",
  "new": "| s_done s n : pc s = SRun n (n - 1) ->",
  "edit": "last time step skipped",
  "breaks": [
   "C85"
  ]
 },
 {
  "file": "Life_Model",
  "def": "on_cmd",
  "old": "pc := SRun c 0;",
  "new": "pc := SRun c 1;",
  "edit": "time steps counted from 1",
  "breaks": [
   "C85"
  ]
 },
 {
  "file": "Life_Model",
  "def": "cstep",
  "old": "if (S r =? length (l1 ++ s :: l2))%nat",
  "new": "if (1 =? S r)%nat",
  "edit": "run returns after the first response of any service",
  "breaks": [
   "C85"
  ]
 },
 {
  "file": "Life_Model",
  "def": "cstep",
  "old": "then {| cl := Ready; prog := prog c; started := started c; running := false; results := results c ++ [Ok] |}\n       else",
  "new": "then {| cl := Ready; prog := prog c; started := started c; running := true; results := results c ++ [Ok] |}\n       else",
  "edit": "running flag not cleared",
  "breaks": [
   "C85"
  ]
 },
 {
  "file": "Life_Model",
  "def": "cstep",
  "old": "running := running c;\n                      results := if running c then results c else results c ++ [Ok] |}, ss)",
  "new": "running := running c;\n                      results := results c ++ [Ok] |}, ss)",
  "edit": "wait reports before waiting",
  "breaks": [
   "C85"
  ]
 },
 {
  "file": "Life_Model",
  "def": "cstep",
  "old": "send_all tSTOP ss)",
  "new": "ss)",
  "edit": "stop sends nothing",
  "breaks": [
   "C85"
  ]
 },
 {
  "file": "Life_Model",
  "def": "cstep",
  "old": "({| cl := Ready; prog := prog c; started := false; running := false; results := results c ++ [Ok] |}, ss)",
  "new": "({| cl := Ready; prog := prog c; started := true; running := false; results := results c ++ [Ok] |}, ss)",
  "edit": "still started after stop",
  "breaks": [
   "C85"
  ]
 },
 {
  "file": "Life_Model",
  "def": "sstep",
  "old": "outq := outq s ++ [1; steps s]; steps",
  "new": "outq := outq s ++ [1; steps s + 1]; steps",
  "edit": "get returns a stale value",
  "breaks": [
   "C85"
  ]
 },
 {
  "file": "Life_Model",
  "def": "sstep",
  "old": "outq := outq s ++ [1; steps s]; steps",
  "new": "outq := outq s ++ [steps s]; steps",
  "edit": "number of items not sent",
  "breaks": [
   "C85"
  ]
 },
 {
  "file": "Life_Model",
  "def": "cstep",
  "old": "results c ++ [Nothing] |}",
  "new": "results c ++ [Val 0] |}",
  "edit": "get during a run returns zeros",
  "breaks": [
   "C85"
  ]
 },
 {
  "file": "Life_Model",
  "def": "on_cmd",
  "old": "{| pc := SDead; inq := q; outq := outq s ++ [tTERMINATED]; steps := steps s |}",
  "new": "{| pc := SIdle; inq := q; outq := outq s ++ [tTERMINATED]; steps := steps s |}",
  "edit": "service survives stop",
  "breaks": [
   "C85"
  ]
 },
 {
  "file": "Life_Model",
  "def": "on_cmd",
  "old": "{| pc := SDead; inq := q; outq := outq s ++ [tTERMINATED]; steps := steps s |}",
  "new": "{| pc := SDead; inq := q; outq := outq s; steps := steps s |}",
  "edit": "termination not acknowledged",
  "breaks": [
   "C85"
  ]
 },
 {
  "file": "Life_Net",
  "def": "api",
  "old": "| None => match c with\n            | Run _ _ =>",
  "new": "| None => match c with\n            | Run _ _ | Stop =>",
  "edit": "stop before the first run creates a runtime",
  "breaks": [
   "C85"
  ]
 },
 {
  "file": "Life_Net",
  "def": "create_runtime",
  "old": "if net p q then Some (made w) else rt w q",
  "new": "if Nat.eqb p q then Some (made w) else rt w q",
  "edit": "runtime assigned to the calling process only",
  "breaks": [
   "C85"
  ]
 },
 {
  "file": "Life_Net",
  "def": "api",
  "old": "| Some r => runtime_call r c w",
  "new": "| Some r => match c with Run _ _ => runtime_call (made w) c (create_runtime net p w) | _ => runtime_call r c w end",
  "edit": "every run compiles again",
  "breaks": [
   "C85"
  ]
 }
]