[
 {
  "file": "Watchdog_Model",
  "def": "fire_begin",
  "old": "flag := upd (flag s) i false; ph := upd (ph s) i Cleared;",
  "new": "flag := flag s; ph := upd (ph s) i Cleared;",
  "edit": "event not cleared when a call begins",
  "breaks": [
   "C93"
  ]
 },
 {
  "file": "Watchdog_Model",
  "def": "fire_put",
  "old": "q := updb (q s) (cls i) (q s (cls i) ++ [Meta i (now s)]);",
  "new": "q := q s;",
  "edit": "metadata not put into the queue",
  "breaks": [
   "C93"
  ]
 },
 {
  "file": "Watchdog_Model",
  "def": "fire_put",
  "old": "q s (cls i) ++ [Meta i (now s)]",
  "new": "q s (cls i) ++ [Meta (S i) (now s)]",
  "edit": "metadata of another port put",
  "breaks": [
   "C93"
  ]
 },
 {
  "file": "Watchdog_Model",
  "def": "fire_put",
  "old": "(q s (cls i) ++ [Meta i (now s)])",
  "new": "(Meta i (now s) :: q s (cls i))",
  "edit": "queue used as a stack",
  "breaks": [
   "C93"
  ]
 },
 {
  "file": "Watchdog_Model",
  "def": "fire_put",
  "old": "updb (q s) (cls i) (q s (cls i) ++ [Meta i (now s)])",
  "new": "updb (q s) true (q s true ++ [Meta i (now s)])",
  "edit": "everything put into the long queue",
  "breaks": [
   "C93"
  ]
 },
 {
  "file": "Watchdog_Model",
  "def": "fire_end",
  "old": "flag := upd (flag s) i true;",
  "new": "flag := flag s;",
  "edit": "event not set when the call raises",
  "breaks": [
   "C93"
  ]
 },
 {
  "file": "Watchdog_Model",
  "def": "fire_end",
  "old": "pool := map (wake i) (pool s);",
  "new": "pool := pool s;",
  "edit": "waiting threads not notified",
  "breaks": [
   "C93"
  ]
 },
 {
  "file": "Watchdog_Model",
  "def": "wake",
  "old": "if fst t =? i then (fst t, TEnd) else t",
  "new": "(fst t, TEnd)",
  "edit": "all waiting threads woken",
  "breaks": [
   "C93"
  ]
 },
 {
  "file": "Watchdog_Model",
  "def": "fire_get",
  "old": "pool := pool s ++ [(i, TStart (now s))];",
  "new": "pool := pool s;",
  "edit": "no thread started",
  "breaks": [
   "C93"
  ]
 },
 {
  "file": "Watchdog_Model",
  "def": "fire_get",
  "old": "mon := updb (mon s) b MJoin;",
  "new": "mon := mon s;",
  "edit": "None ignored by the monitor",
  "breaks": [
   "C93"
  ]
 },
 {
  "file": "Watchdog_Model",
  "def": "fire_get",
  "old": "mon := updb (mon s) b MJoin;",
  "new": "mon := updb (mon s) b MExit;",
  "edit": "threads not joined",
  "breaks": [
   "C93"
  ]
 },
 {
  "file": "Watchdog_Model",
  "def": "thread_next",
  "old": "if flag s i then Some (TEnd, tr s) else Some (TWait (now s), tr s)",
  "new": "if flag s i then Some (TWait (now s), tr s) else Some (TEnd, tr s)",
  "edit": "wait inverted",
  "breaks": [
   "C93"
  ]
 },
 {
  "file": "Watchdog_Model",
  "def": "thread_next",
  "old": "if flag s i then Some (TEnd, tr s) else Some (TWait (now s), tr s)",
  "new": "Some (TWait (now s), tr s)",
  "edit": "flag not looked at before waiting",
  "breaks": [
   "C93"
  ]
 },
 {
  "file": "Watchdog_Model",
  "def": "thread_next",
  "old": "if f + T (cls i) <=? now s then Some (TPrint (now s), tr s)",
  "new": "if now s <=? f + T (cls i) then Some (TPrint (now s), tr s)",
  "edit": "timeout comparison reversed",
  "breaks": [
   "C93"
  ]
 },
 {
  "file": "Watchdog_Model",
  "def": "thread_next",
  "old": "if f + T (cls i) <=? now s then Some (TPrint (now s), tr s)",
  "new": "if f + T (negb (cls i)) <=? now s then Some (TPrint (now s), tr s)",
  "edit": "timeouts swapped",
  "breaks": [
   "C93"
  ]
 },
 {
  "file": "Watchdog_Model",
  "def": "thread_next",
  "old": "| TPrint _ => Some (TStart (now s), log s (Print i))",
  "new": "| TPrint _ => Some (TEnd, log s (Print i))",
  "edit": "thread ends after the first message",
  "breaks": [
   "C93"
  ]
 },
 {
  "file": "Watchdog_Model",
  "def": "thread_next",
  "old": "log s (Print i)",
  "new": "tr s",
  "edit": "message not printed",
  "breaks": [
   "C93"
  ]
 },
 {
  "file": "Watchdog_Model",
  "def": "thread_next",
  "old": "log s (Print i)",
  "new": "log s (Print 0)",
  "edit": "name of the first port printed",
  "breaks": [
   "C93"
  ]
 },
 {
  "file": "Watchdog_Model",
  "def": "joined",
  "old": "negb (Bool.eqb (cls (fst t)) b) || ended t",
  "new": "negb (Bool.eqb (cls (fst t)) b) || true",
  "edit": "join does not wait",
  "breaks": [
   "C93"
  ]
 },
 {
  "file": "Watchdog_Model",
  "def": "fire_exit",
  "old": "updb (mon s) b MExit",
  "new": "updb (mon s) (negb b) MExit",
  "edit": "other monitor exits",
  "breaks": [
   "C93"
  ]
 },
 {
  "file": "Watchdog_Model",
  "def": "fire_stop",
  "old": "q := updb (q s) false (q s false ++ [NoneE (now s)]); mon",
  "new": "q := q s; mon",
  "edit": "short monitor not told to stop",
  "breaks": [
   "C93"
  ]
 },
 {
  "file": "Watchdog_Model",
  "def": "fire_stop",
  "old": "| S2 => match mon s true with",
  "new": "| S2 => match mon s false with",
  "edit": "long monitor not joined",
  "breaks": [
   "C93"
  ]
 },
 {
  "file": "Watchdog_Model",
  "def": "fire_stop",
  "old": "| S3 => match mon s false with",
  "new": "| S3 => match mon s true with",
  "edit": "short monitor not joined",
  "breaks": [
   "C93"
  ]
 },
 {
  "file": "Watchdog_Model",
  "def": "fire_stop",
  "old": "updb (q s) true (q s true ++ [NoneE (now s)])",
  "new": "updb (q s) true (NoneE (now s) :: q s true)",
  "edit": "stop overtakes the queue",
  "breaks": [
   "C93"
  ]
 },
 {
  "file": "Watchdog_Model",
  "def": "fire_begin",
  "old": "| Idle => Some {| now := now s; flag := upd (flag s) i false;",
  "new": "| Idle => Some {| now := now s; flag := fun _ => false;",
  "edit": "all events cleared",
  "breaks": [
   "C93"
  ]
 }
]