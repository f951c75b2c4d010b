(** C88: the results of a run do not depend on the schedule. *)
From Coq Require Import List Arith Bool Lia Permutation.
From Verif Require Import Kahn_Model Kahn_Spec Kahn_Proofs Kahn_Loihi.
Import ListNotations.

(** ** Arbitrary networks *)
(** if some schedule brings a network without races to an end, then every schedule does, in the same number of steps of each
    process, and to the same end: same memories, same messages *)
Theorem schedule_does_not_matter : forall V L (N : net V L) src dst s0, wired N src dst -> race_free N s0 ->
  forall ps s, exec N s0 ps s -> stuck N s ->
  (forall ps' s', exec N s0 ps' s' -> exists rest, exec N s' rest s /\ Permutation ps (ps' ++ rest)) /\
  (forall ps' s', exec N s0 ps' s' -> stuck N s' -> s' = s /\ Permutation ps ps') /\
  (forall run sch, ~ endless N s0 run sch).
Proof.
  intros V L N src dst s0 W RF ps s E St.
  assert (reachable N s0 s0) as R0 by (exists []; constructor).
  assert (forall ps' s', exec N s0 ps' s' -> exists rest, exec N s' rest s /\ Permutation ps (ps' ++ rest)) as A by (intros; eapply (absorb N src dst s0 W RF s0); eauto).
  split; [exact A|]. split.
  - intros ps' s' E' St'. destruct (A ps' s' E') as (rest & X1 & X2). inversion X1 as [|? p s1 r t St1 X]; subst; [rewrite app_nil_r in X2; auto|]. exfalso. eapply St'; eauto.
  - intros run sch HE. destruct (A _ _ ltac:(rewrite <- (en_start _ _ _ _ HE); apply (endless_exec N s0 run sch HE 0 (S (length ps))); lia)) as (rest & _ & X).
    apply Permutation_length in X. rewrite app_length, map_length, seq_length in X. lia.
Qed.

(** otherwise, two schedules that do not neglect a process lead to the same messages on each channel: what one of them has sent
    at some time, the other one has sent at some time *)
Theorem fair_schedules_agree : forall V L (N : net V L) src dst s0, wired N src dst -> race_free N s0 ->
  forall run sch, endless N s0 run sch -> fair N run sch ->
  (forall ps s, exec N s0 ps s -> exists m rest, exec N s rest (run m) /\ forall c, prefix (sent_of s c) (sent_of (run m) c)) /\
  (forall run' sch', endless N s0 run' sch' -> forall n, exists m, forall c, prefix (sent_of (run' n) c) (sent_of (run m) c)).
Proof.
  intros V L N src dst s0 W RF run sch HE HF.
  assert (reachable N s0 s0) as R0 by (exists []; constructor).
  assert (forall ps s, exec N s0 ps s -> exists m rest, exec N s rest (run m) /\ forall c, prefix (sent_of s c) (sent_of (run m) c)) as A.
  { intros ps s E. destruct (overtakes N src dst s0 W RF run sch HE HF s0 ps s R0) as (m & w' & X); [|exact E|].
    - exists 0, []. rewrite (en_start _ _ _ _ HE). constructor.
    - exists m, w'. split; [exact X|]. intros c. eapply sent_exec. exact X. }
  split; [exact A|]. intros run' sch' HE' n.
  destruct (A (map sch' (seq 0 (n - 0))) (run' n)) as (m & rest & _ & X); [|eauto].
  rewrite <- (en_start _ _ _ _ HE'). apply (endless_exec N s0 run' sch' HE' 0 n). lia.
Qed.

(** ** Networks of process models under the Loihi protocol *)
(** arbitrary user code in all phases, arbitrary guards, any number of processes and channels, any channel size, any sequence of
    blocking runs, pauses and a stop: without requests for a pause or stop by processes and without VarPorts, everything that is
    computed and sent is independent of the schedule *)
Theorem loihi_schedule_does_not_matter : forall D U R (W : loihi D U R) size usrc udst u r,
  user_wired W usrc udst -> no_requests W ->
  let N := loihi_net D U R W size in let s0 := loihi_start D U R W u r in
  (forall ps s, exec N s0 ps s -> stuck N s ->
     (forall ps' s', exec N s0 ps' s' -> exists rest, exec N s' rest s /\ Permutation ps (ps' ++ rest)) /\
     (forall ps' s', exec N s0 ps' s' -> stuck N s' -> s' = s /\ Permutation ps ps') /\
     (forall run sch, ~ endless N s0 run sch)) /\
  (forall run sch, endless N s0 run sch -> fair N run sch ->
     (forall ps s, exec N s0 ps s -> exists m rest, exec N s rest (run m) /\ forall c, prefix (sent_of s c) (sent_of (run m) c)) /\
     (forall run' sch', endless N s0 run' sch' -> forall n, exists m, forall c, prefix (sent_of (run' n) c) (sent_of (run m) c))).
Proof.
  intros D U R W size usrc udst u r HU HR N s0.
  pose proof (loihi_wired W size usrc udst HU) as HW. pose proof (loihi_free W size usrc udst HU HR u r) as HF.
  split; [apply (schedule_does_not_matter _ _ _ _ _ _ HW HF)|apply (fair_schedules_agree _ _ _ _ _ _ HW HF)].
Qed.

(** process [p] of a final state *)
Definition memory_of {D U R} (s : st (msg D) (lloc U R)) (p : nat) : option U :=
  match nth_error (loc s) p with
  | Some (LProc _ _ (PSelect _ u)) | Some (LProc _ _ (PRecv _ u)) | Some (LProc _ _ (PRun _ _ u)) | Some (LProc _ _ (PReply _ _ _ u)) | Some (LProc _ _ (PEnd _ u)) => Some u
  | _ => None
  end.
(** a case: process 0 sends 1, 2, 3, ... to process 1, which sends each of them back and adds up what it gets, and process 0 adds
    them up, too; three steps, then stop.  Memory: position in the code, what is next to be sent, sum *)
Definition pingpong : loihi nat (nat * nat * nat) nat :=
  {| np := 2; nc := 2;
     ucode := fun p _ u => let '(k, x, sum) := u in
       match p, k with
       | 0, 0 => USend _ _ 0 x (1, x + 1, sum) | 0, 1 => URecv _ _ 1 (fun d => (2, x, sum + d))
       | 1, 0 => URecv _ _ 0 (fun d => (1, d, sum + d)) | 1, 1 => USend _ _ 1 x (2, x, sum)
       | _, _ => UReturn _ _
       end;
     begin_phase := fun _ ph u => match ph with SPK => (0, snd (fst u), snd u) | _ => u end;
     pre_guard := fun _ _ => false; lrn_guard := fun _ _ => false; post_guard := fun _ _ => false;
     requested := fun _ _ => NoReq; clear_req := fun _ u => u;
     client := fun r => match r with 0 => Some (RRun 3, fun _ => 1) | 1 => Some (RStop, fun _ => 2) | _ => None end |}.
Definition pingpong_end (prio : list nat) := prio_run (loihi_net _ _ _ pingpong 1) prio (loihi_start _ _ _ pingpong (fun _ => (0, 1, 0)) 0) 1000.
Example pingpong_case : user_wired pingpong (fun c => c) (fun c => 1 - c) /\ no_requests pingpong /\
  stuck (loihi_net _ _ _ pingpong 1) (pingpong_end [0; 1; 2; 3]) /\
  memory_of (pingpong_end [0; 1; 2; 3]) 0 = Some (2, 4, 6) /\ memory_of (pingpong_end [3; 2; 1; 0]) 1 = Some (2, 3, 6) /\
  sent_of (pingpong_end [0; 1; 2; 3]) 1 = [MData _ 1; MData _ 2; MData _ 3] /\
  sent_of (pingpong_end [0; 1; 2; 3]) (to_rt _ _ _ pingpong) = [MRResp _ RDone; MRResp _ RTerminated].
Proof.
  split; [|split; [|split]].
  - intros p ph [[k x] sum] Hp. cbn in Hp. destruct p as [|[|p]]; [| |lia]; cbn [pingpong ucode]; destruct k as [|[|k]]; cbn; auto.
  - intros p u. reflexivity.
  - apply stuckb_sound. vm_compute. reflexivity.
  - repeat apply conj; vm_compute; reflexivity.
Qed.

(** ** What depends on the schedule *)
(** probing a channel: process 1 receives only if it sees a message *)
Definition prober : net nat nat :=
  {| code := fun p l => match p, l with
       | 0, 0 => ASend 0 7 1
       | 1, 0 => AProbe 0 (fun b => if b then 1 else 2)
       | 1, 1 => ARecv 0 (fun v => v)
       | _, _ => AHalt
       end; cap := fun _ => 1 |}.
Theorem probe_depends_on_schedule : exists s0 ps1 s1 ps2 s2, wired prober (fun _ => 0) (fun _ => 1) /\
  exec prober s0 ps1 s1 /\ stuck prober s1 /\ loc s1 = [1; 7] /\ exec prober s0 ps2 s2 /\ stuck prober s2 /\ loc s2 = [1; 2].
Proof.
  exists {| loc := [0; 0]; chan := [[]]; sent := [[]] |}, [0; 1; 1]. eexists. exists [1; 0]. eexists.
  split; [intros [|[|p]] [|[|l]]; exact eq_refl || exact I|].
  split; [apply runs_sound; vm_compute; reflexivity|]. split; [apply stuckb_sound; vm_compute; reflexivity|]. split; [reflexivity|].
  split; [apply runs_sound; vm_compute; reflexivity|]. split; [apply stuckb_sound; vm_compute; reflexivity|reflexivity].
Qed.
(** waiting for several channels, as a process model does that has several VarPorts: processes 0 and 1 each write to a variable of
    process 2, which serves the requests as they come; the last one wins *)
Definition serving : net nat (nat * nat) :=
  {| code := fun p l => match p, l with
       | 0, (0, _) => ASend 0 11 (1, 0)
       | 1, (0, _) => ASend 1 22 (1, 0)
       | 2, (0, x) => ASelect [0; 1] (fun c => (S c, x))
       | 2, (S c, _) => ARecv c (fun v => (0, v))
       | _, _ => AHalt
       end; cap := fun _ => 1 |}.
Theorem select_depends_on_schedule : exists s0 ps1 s1 ps2 s2, 
  exec serving s0 ps1 s1 /\ stuck serving s1 /\ nth_error (loc s1) 2 = Some (0, 22) /\ exec serving s0 ps2 s2 /\ stuck serving s2 /\ nth_error (loc s2) 2 = Some (0, 11).
Proof.
  exists {| loc := [(0, 0); (0, 0); (0, 0)]; chan := [[]; []]; sent := [[]; []] |}, [0; 2; 2; 1; 2; 2]. eexists. exists [1; 2; 2; 0; 2; 2]. eexists.
  split; [apply runs_sound; vm_compute; reflexivity|]. split; [apply stuckb_sound; vm_compute; reflexivity|]. split; [reflexivity|].
  split; [apply runs_sound; vm_compute; reflexivity|]. split; [apply stuckb_sound; vm_compute; reflexivity|reflexivity].
Qed.
(** a process requests a pause in the last step of a run: the service sends both the request and that the run is done; from then
    on the program takes each answer for that to its next command, and where the last run ends depends on the schedule.
    Memory: time step, is the request pending? *)
Definition requester : loihi nat (nat * bool) nat :=
  {| np := 1; nc := 0; ucode := fun _ _ _ => UReturn _ _;
     begin_phase := fun _ ph u => match ph with SPK => (S (fst u), snd u) | _ => u end;
     pre_guard := fun _ _ => false; lrn_guard := fun _ _ => false; post_guard := fun _ _ => false;
     requested := fun _ u => if snd u && (fst u =? 1) then PauseReq else NoReq; clear_req := fun _ u => (fst u, false);
     client := fun r => match r with
       | 0 => Some (RRun 1, fun a => match a with RReqPause => 1 | _ => 9 end)
       | 1 => Some (RPause, fun _ => 2) | 2 => Some (RRun 5, fun _ => 3) | 3 => Some (RStop, fun _ => 9) | _ => None end |}.
Definition requester_end (prio : list nat) := prio_run (loihi_net _ _ _ requester 2) prio (loihi_start _ _ _ requester (fun _ => (0, true)) 0) 1000.
(** every channel still has one sender and one receiver, and both runs come to an end, but process 0 has made six steps in one of
    them and two in the other *)
Theorem request_in_last_step_depends_on_schedule : let N := loihi_net _ _ _ requester 2 in let s0 := loihi_start _ _ _ requester (fun _ => (0, true)) 0 in
  user_wired requester (fun c => c) (fun c => c) /\ exists s1 s2,
  reachable N s0 s1 /\ stuck N s1 /\ memory_of s1 0 = Some (6, false) /\
  reachable N s0 s2 /\ stuck N s2 /\ memory_of s2 0 = Some (2, false).
Proof.
  intros N s0. split; [intros p ph u Hp; exact I|]. exists (requester_end [0; 1; 2]), (requester_end [2; 0; 1]).
  split; [apply prio_sound|]. split; [apply stuckb_sound; vm_compute; reflexivity|]. split; [vm_compute; reflexivity|].
  split; [apply prio_sound|]. split; [apply stuckb_sound; vm_compute; reflexivity|vm_compute; reflexivity].
Qed.
