[
 {
  "file": "RefPhase_Model",
  "def": "follows",
  "old": "| f_post1 : follows Spk Post",
  "new": "| f_post1 : follows Spk Post\n| f_post0 : follows Pre Post",
  "edit": "post management may follow pre management directly",
  "breaks": [
   "C98"
  ]
 },
 {
  "file": "RefPhase_Model",
  "def": "follows",
  "old": "| f_host1 : follows Spk Host",
  "new": "| f_host1 : follows Spk Host\n| f_pp : follows Post Post",
  "edit": "a second post-management phase in the same step",
  "breaks": [
   "C98"
  ]
 },
 {
  "file": "RefPhase_Model",
  "def": "step_of",
  "old": "Spk => S t",
  "new": "Lrn => S t",
  "edit": "time counted in the learning phase",
  "breaks": [
   "C98"
  ]
 },
 {
  "file": "RefPhase_Model",
  "def": "polls",
  "old": "Pre | Post | Host => true",
  "new": "Spk | Pre | Post | Host => true",
  "edit": "VarPorts polled in the spiking phase too",
  "breaks": [
   "C98"
  ]
 },
 {
  "file": "RefPhase_Model",
  "def": "polls",
  "old": "Pre | Post | Host => true",
  "new": "Lrn | Pre | Post | Host => true",
  "edit": "VarPorts polled in the learning phase too",
  "breaks": [
   "C98"
  ]
 },
 {
  "file": "RefPhase_Model",
  "def": "polls",
  "old": "Pre | Post | Host => true",
  "new": "Post | Host => true",
  "edit": "VarPorts not polled in pre management",
  "breaks": [
   "C98"
  ]
 },
 {
  "file": "RefPhase_Model",
  "def": "polls",
  "old": "Pre | Post | Host => true",
  "new": "Pre | Host => true",
  "edit": "VarPorts not polled in post management",
  "breaks": [
   "C98"
  ]
 },
 {
  "file": "RefPhase_Model",
  "def": "needs_answer",
  "old": "Host => false",
  "new": "Host | Post => false",
  "edit": "the service does not wait for the post-management phase",
  "breaks": [
   "C98"
  ]
 },
 {
  "file": "RefPhase_Model",
  "def": "needs_answer",
  "old": "Host => false",
  "new": "Host | Spk => false",
  "edit": "the service does not wait for the spiking phase",
  "breaks": [
   "C98"
  ]
 },
 {
  "file": "RefPhase_Model",
  "def": "room",
  "old": "< cap N",
  "new": ">= cap N",
  "edit": "room test inverted",
  "breaks": [
   "C98"
  ]
 },
 {
  "file": "RefPhase_Model",
  "def": "step",
  "old": "forall p, p < n N -> answered s p = true)",
  "new": "forall p, p < n N - 1 -> answered s p = true)",
  "edit": "the service does not wait for the last process",
  "breaks": [
   "C98"
  ]
 },
 {
  "file": "RefPhase_Model",
  "def": "step",
  "old": "(fun p => if p <? n N then cmds s p ++ [m] else cmds s p) (fun _ => false)",
  "new": "(fun p => if p <? n N then cmds s p ++ [m] else cmds s p) (answered s)",
  "edit": "old answers are not discarded",
  "breaks": [
   "C98"
  ]
 },
 {
  "file": "RefPhase_Model",
  "def": "step",
  "old": "if p <? n N then cmds s p ++ [m] else cmds s p",
  "new": "if p <? n N - 1 then cmds s p ++ [m] else cmds s p",
  "edit": "last process gets no command",
  "breaks": [
   "C98"
  ]
 },
 {
  "file": "RefPhase_Model",
  "def": "step",
  "old": "upd (fly s) r (fly s r ++ [AskGet (cur s p)])",
  "new": "upd (fly s) r (AskGet (cur s p) :: fly s r)",
  "edit": "read overtakes writes in the channel",
  "breaks": [
   "C98"
  ]
 },
 {
  "file": "RefPhase_Model",
  "def": "step",
  "old": "upd (fly s) r (fly s r ++ [AskSet (cur s p) x])",
  "new": "upd (fly s) r (fly s r)",
  "edit": "write not sent",
  "breaks": [
   "C98"
  ]
 },
 {
  "file": "RefPhase_Model",
  "def": "step",
  "old": "(upd (seen s) r (seen s r ++ [q]))",
  "new": "(upd (seen s) r (q :: seen s r))",
  "edit": "messages arrive in reverse order",
  "breaks": [
   "C98"
  ]
 },
 {
  "file": "RefPhase_Model",
  "def": "step",
  "old": "(upd (reply s) r (Some (vars s (target N r))))",
  "new": "(upd (reply s) r (Some (vars s r)))",
  "edit": "reply with the wrong Var",
  "breaks": [
   "C98"
  ]
 },
 {
  "file": "RefPhase_Model",
  "def": "step",
  "old": "| s_get s r m l : pst s (owner N r) = Poll ->",
  "new": "| s_get s r m l : ",
  "edit": "reads served while the owner's code runs",
  "breaks": [
   "C98"
  ]
 },
 {
  "file": "RefPhase_Model",
  "def": "step",
  "old": "| s_set s r m x l : pst s (owner N r) = Poll ->",
  "new": "| s_set s r m x l : ",
  "edit": "writes served while the owner's code runs",
  "breaks": [
   "C98"
  ]
 },
 {
  "file": "RefPhase_Model",
  "def": "step",
  "old": "| s_set s r m x l : pst s (owner N r) = Poll -> polls (fst (cur s (owner N r))) = true ->",
  "new": "| s_set s r m x l : pst s (owner N r) = Poll ->",
  "edit": "writes served in any phase",
  "breaks": [
   "C98"
  ]
 },
 {
  "file": "RefPhase_Model",
  "def": "step",
  "old": "(upd (vars s) (target N r) x) (fly s) (upd (seen s) r l)",
  "new": "(vars s) (fly s) (upd (seen s) r l)",
  "edit": "served write changes nothing",
  "breaks": [
   "C98"
  ]
 },
 {
  "file": "RefPhase_Model",
  "def": "step",
  "old": "(upd (vars s) (target N r) x) (fly s) (upd (seen s) r l)",
  "new": "(upd (vars s) (target N r) x) (fly s) (seen s)",
  "edit": "write served again and again",
  "breaks": [
   "C98"
  ]
 },
 {
  "file": "RefPhase_Model",
  "def": "step",
  "old": "(upd (pst s) p (Running (k x))) (vars s) (fly s) (seen s) (upd (reply s) r None)",
  "new": "(upd (pst s) p (Running (k x))) (vars s) (fly s) (seen s) (reply s)",
  "edit": "reply not consumed",
  "breaks": [
   "C98"
  ]
 },
 {
  "file": "RefPhase_Model",
  "def": "step",
  "old": "(upd (pst s) p (Waiting r k)) (vars s)",
  "new": "(upd (pst s) p (Running (k 0%Z))) (vars s)",
  "edit": "read does not wait",
  "breaks": [
   "C98"
  ]
 },
 {
  "file": "RefPhase_Model",
  "def": "step",
  "old": "(upd (answered s) p true) (cur s)",
  "new": "(answered s) (cur s)",
  "edit": "no answer at the end of the phase",
  "breaks": [
   "C98"
  ]
 },
 {
  "file": "RefPhase_Model",
  "def": "step",
  "old": "(strict = true -> polls (fst (cur s p)) = true -> none_visible N s p)",
  "new": "(polls (fst (cur s p)) = true -> none_visible N s p)",
  "edit": "VarPorts always first, also when a request arrives during the scan - fewer schedules, properties stay true, expected to survive",
  "breaks": []
 },
 {
  "file": "RefPhase_Model",
  "def": "step",
  "old": "(strict = true -> polls (fst (cur s p)) = true -> none_visible N s p)",
  "new": "(strict = true -> polls (fst (cur s p)) = false)",
  "edit": "commands are not taken in management phases",
  "breaks": [
   "C98"
  ]
 },
 {
  "file": "RefPhase_Model",
  "def": "step",
  "old": "match f with Host => Poll | _ => Running (body N p f t) end",
  "new": "match f with Host | Post => Poll | _ => Running (body N p f t) end",
  "edit": "run_post_mgmt never called",
  "breaks": [
   "C98"
  ]
 }
]