(** Model of the buffered sources and sinks of /repo/src/lava/proc/io: RingBuffer (source.py, sink.py),
    Read (sink.py), StateDataloader and SpikeDataloader (dataloader.py).
    A column (all entries of one time step) is a value of an abstract type [A]: the code only copies
    columns.  Time steps count from 1.  Casts between dtypes are not modelled. *)
From Coq Require Import Arith List Lia.
Import ListNotations.

Section Buffers.
Variable A : Type.

Fixpoint put (i : nat) (x : A) (l : list A) : list A :=
  match l, i with
  | [], _ => []
  | _ :: r, O => x :: r
  | y :: r, S j => y :: put j x r
  end.

(** source.py AbstractPyRingBuffer.run_spk 41-43: what is sent at time step [t] *)
Definition source_send (d : A) (data : list A) (t : nat) : A := nth ((t - 1) mod length data) data d.

(** sink.py AbstractPyReceiveModel.run_spk 48-52 *)
Definition sink_recv (t : nat) (buf : list A) (x : A) : list A := put ((t - 1) mod length buf) x buf.
(** the buffer after receiving [xs], the first of them in time step [t] *)
Fixpoint sink_run (t : nat) (buf : list A) (xs : list A) : list A :=
  match xs with
  | [] => buf
  | x :: r => sink_run (S t) (sink_recv t buf x) r
  end.

(** sink.py Read: Var offset is [offset % interval] (96); guard 123-124, run_post_mgmt 126-130.
    [v] is the value of the referenced variable in the post-management phase of the step. *)
Record read_st := mkRead { rd_data : list A; rd_counter : nat }.
Definition read_step (interval offset t : nat) (s : read_st) (v : A) : read_st :=
  if (t - 1) mod interval =? offset mod interval
  then mkRead (put (rd_counter s mod length (rd_data s)) v (rd_data s)) (S (rd_counter s))
  else s.
Fixpoint read_run (interval offset t : nat) (s : read_st) (vs : list A) : read_st :=
  match vs with
  | [] => s
  | v :: r => read_run interval offset (S t) (read_step interval offset t s v) r
  end.
End Buffers.
Arguments put {A}. Arguments source_send {A}. Arguments sink_recv {A}. Arguments sink_run {A}.
Arguments mkRead {A}. Arguments rd_data {A}. Arguments rd_counter {A}. Arguments read_step {A}. Arguments read_run {A}.

Section Loaders.
(** [A]: a sample of the StateDataloader, [G]: a ground truth, [C]: a column of a spike sample *)
Variables A G C : Type.

(** AbstractPyDataloaderModel: sample_id, ground_truth_state; the connected variable *)
Record sload := mkSload { sl_id : nat; sl_gt : G; sl_var : A }.
(** dataloader.py AbstractPyStateDataloaderModel 114-127: one step; the result also says what is sent on
    [ground_truth].  Between the steps only the loader writes the connected variable here. *)
Definition sload_step (ds : list (A * G)) (interval offset t : nat) (s : sload) : G * sload :=
  (sl_gt s,
   if (t - 1) mod interval =? offset mod interval
   then match nth_error ds (sl_id s) with
        | Some (x, g) => mkSload (if S (sl_id s) =? length ds then 0 else S (sl_id s)) g x
        | None => s (* IndexError: unreachable, see Io_Props *)
        end
   else s).
(** state before step [t] (t = 1 is the first) *)
Fixpoint sload_at (ds : list (A * G)) (interval offset : nat) (s0 : sload) (n : nat) : sload :=
  match n with
  | O => s0
  | S k => snd (sload_step ds interval offset (S k) (sload_at ds interval offset s0 k))
  end.

(** dataloader.py AbstractPySpikeDataloaderModel 174-203; the initial data is zeros((.., interval)) (169) *)
Record pload := mkPload { pl_id : nat; pl_gt : G; pl_data : list C; pl_time : nat }.
Definition pad (zero : C) (interval : nat) (x : list C) : list C :=
  if interval <=? length x then firstn interval x else x ++ repeat zero (interval - length x).
Definition pload_step (zero : C) (ds : list (list C * G)) (interval offset t : nat) (s : pload) : (C * G) * pload :=
  let out := (nth (pl_time s mod interval) (pl_data s) zero, pl_gt s) in
  let s1 := mkPload (pl_id s) (pl_gt s) (pl_data s) (S (pl_time s)) in
  (out,
   if (t - 1) mod interval =? offset mod interval
   then match nth_error ds (pl_id s1) with
        | Some (x, g) => mkPload (if S (pl_id s1) =? length ds then 0 else S (pl_id s1)) g (pad zero interval x) 0
        | None => s1
        end
   else s1).
Fixpoint pload_at (zero : C) (ds : list (list C * G)) (interval offset : nat) (s0 : pload) (n : nat) : pload :=
  match n with
  | O => s0
  | S k => snd (pload_step zero ds interval offset (S k) (pload_at zero ds interval offset s0 k))
  end.
End Loaders.
Arguments mkSload {A G}. Arguments sl_id {A G}. Arguments sl_gt {A G}. Arguments sl_var {A G}.
Arguments sload_step {A G}. Arguments sload_at {A G}.
Arguments mkPload {G C}. Arguments pl_id {G C}. Arguments pl_gt {G C}. Arguments pl_data {G C}. Arguments pl_time {G C}.
Arguments pload_step {G C}. Arguments pload_at {G C}. Arguments pad {C}.
