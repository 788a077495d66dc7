(** Model of structcol/event_distribution.py (all but the plotting functions
    and the deprecated [phase=True] branch of calc_tir).  No proofs here.

    Arrays over trajectories are lists of equal length; index arrays are lists
    of natural numbers. *)
From Verif Require Export Num M_init M_refractive_index M_detector.
Open Scope R_scope.

(** [np.where(idx == ev)[0]]: positions holding the value [ev]. *)
Definition where_eq (idx : list nat) (ev : nat) : list nat :=
  filter (fun k => Nat.eqb (nth k idx 0%nat) ev) (seq 0 (length idx)).
(** [a[positions]]. *)
Definition take_at (a : list R) (positions : list nat) : list R :=
  map (fun k => nth k a 0) positions.
(** [np.sum(a[np.where(idx == ev)[0]])]. *)
Definition sum_at (a : list R) (idx : list nat) (ev : nat) : R :=
  Rsum (take_at a (where_eq idx ev)).

(** [a[i] += v]: IndexError past the end. *)
Fixpoint add_at (i : nat) (v : R) (l : list R) : result (list R) :=
  match l, i with
  | [], _ => Err IndexError
  | x :: t, O => Ok (x + v :: t)
  | x :: t, S j => bind (add_at j v t) (fun t' => Ok (x :: t'))
  end.

(** [np.zeros(k)]. *)
Definition zeros (k : nat) : list R := repeat 0 k.

(** A loop [for ev in evs: a[pos ev] += amount ev]. *)
Fixpoint add_loop (evs : list nat) (pos : nat -> nat) (amount : nat -> R) (a : list R)
  : result (list R) :=
  match evs with
  | [] => Ok a
  | ev :: t => bind (add_at (pos ev) (amount ev) a) (add_loop t pos amount)
  end.

(** structcol/event_distribution.py:15-68 [calc_refl_trans_event].  The two
    arrays are filled by one loop in the code, by one loop each here. *)
Definition calc_refl_trans_event (refl_per_traj inc_refl_per_traj trans_per_traj : list R)
  (refl_indices trans_indices : list nat) (nevents : nat) : result (list R * list R) :=
  let refl0 := Rsum inc_refl_per_traj :: zeros (2 * nevents) in
  bind (add_loop (seq 1 nevents) (fun ev => ev) (sum_at refl_per_traj refl_indices) refl0)
    (fun refl_events =>
  bind (add_loop (seq 1 nevents) (fun ev => ev) (sum_at trans_per_traj trans_indices)
          (zeros (2 * nevents + 1)))
    (fun trans_events => Ok (refl_events, trans_events))).

(** structcol/event_distribution.py:70-96 [calc_path_length]; [steps] has one
    list of steps per trajectory. *)
Definition calc_path_length (steps : list (list R)) (exit_indices : list nat) : list R :=
  map2 (fun s k => Rsum (firstn k s)) steps exit_indices.

(** structcol/event_distribution.py:99-167 [calc_refl_trans_event_traj].
    Lines 145-149 replace every argument by a slice of [refl_indices].  NumPy
    raises ValueError at line 152 if there are not [ntraj] trajectories to
    slice (one trajectory would be broadcast; not modelled). *)
Definition calc_refl_trans_event_traj (refl_per_traj inc_refl_per_traj trans_per_traj : list R)
  (refl_indices trans_indices : list nat) (nevents ntraj : nat)
  : result (list (list R) * list (list R)) :=
  let idx := firstn ntraj refl_indices in
  let vals := map INR idx in
  if Nat.eqb (length idx) ntraj then
    let row ev := map (fun i => if Nat.eqb i ev then sum_at vals idx ev else 0) idx in
    let rows := map row (seq 1 nevents) ++ repeat (zeros ntraj) nevents in
    Ok (vals :: rows, zeros ntraj :: rows)
  else Err ValueError.

(** structcol/event_distribution.py:169-212 [calc_thetas_event_traj], one
    trajectory: the column of [nevents] entries; event [nevents] is not
    visited by [range(1, nevents)]. *)
Definition calc_thetas_event (theta : list R) (refl_index nevents : nat) : list R :=
  map (fun ev => if Nat.eqb ev 0 then 0
                 else if Nat.eqb refl_index ev then nth ev theta 0 else 0) (seq 0 nevents).

(** structcol/event_distribution.py:293-309: event of the first total internal
    reflection of one trajectory, 0 if none or after the exit. *)
Definition or_inf (nevents i : nat) : nat := if Nat.eqb i 0 then (nevents * 10)%nat else i.
Definition tir_index (nevents : nat) (tir_refl_bool : list bool) (refl_i trans_i : nat) : nat :=
  let t := argmax_padded tir_refl_bool in
  let t := if Nat.ltb (or_inf nevents refl_i) t then 0%nat else t in
  if Nat.ltb (or_inf nevents trans_i) t then 0%nat else t.

(** structcol/event_distribution.py:214-412 [calc_tir], [phase=False]: the four
    arrays over events and the single-scattering indices. *)
Record tir_events := mk_tir {
  ti_all : list R; ti_all_refl : list R; ti_single : list R; ti_single_refl : list R;
  ti_single_idx : list nat }.
Definition calc_tir (tir_refl_bool : list (list bool)) (refl_indices trans_indices : list nat)
  (inc_refl_per_traj : list R) (n_sample n_medium : R) (b : boundary) (trs : list traj)
  (nevents : nat) (thickness : R) : result tir_events :=
  let ntraj := length trs in
  let weights := map t_w trs in
  let tir_i := map3 (tir_index nevents) tir_refl_bool refl_indices trans_indices in
  let scaled idx := map2 (fun inc w => (1 - inc) * w / INR ntraj)
                      inc_refl_per_traj (select_all weights idx) in
  let refl_of idx := map2 (fun t r => if Nat.eqb t 0 then 0%nat else r) idx refl_indices in
  let single_i := map (fun t => if Nat.eqb t 2 then t else 0%nat) tir_i in
  let reflected idx :=
    bind (fresnel_pass_frac n_sample None n_medium (get_angles idx b trs thickness None))
      (fun pf => Ok (map2 Rmult (scaled idx) pf)) in
  let events idx amounts :=
    add_loop (seq 1 (nevents - 1)) (fun ev => ev) (sum_at amounts idx) (zeros (2 * nevents + 1)) in
  bind (reflected (refl_of tir_i)) (fun all_refl =>
  bind (reflected (refl_of single_i)) (fun single_refl =>
  bind (events tir_i (scaled tir_i)) (fun e_all =>
  bind (events (refl_of tir_i) all_refl) (fun e_all_refl =>
  bind (events single_i (scaled single_i)) (fun e_single =>
  bind (events (refl_of single_i) single_refl) (fun e_single_refl =>
  Ok (mk_tir e_all e_all_refl e_single e_single_refl single_i))))))).

(** structcol/event_distribution.py:489-520 [calc_pdf_scat]: NaN entries where
    the normalising sum is 0. *)
Definition slice (l : list R) (lo hi : nat) : list R := skipn lo (firstn hi l).
Definition normalise (l : list R) : list num := map (fun x => ndiv x (Rsum l)) l.
Definition calc_pdf_scat (refl_events trans_events : list R) (nevents : nat)
  : list num * list num :=
  (normalise (slice refl_events 2 (nevents + 1)), normalise (slice trans_events 1 (nevents + 1))).

(** structcol/event_distribution.py:522-597 [calc_refl_event_fresnel_pdf].  The
    draws of [rng.choice] are arguments: [samp_refl] from 2..nevents and
    [samp_trans] from 1..nevents, [nevents + 1] of each. *)
Definition calc_refl_event_fresnel_pdf (refl_events : list R) (samp_refl samp_trans : list nat)
  (refl_indices trans_indices : list nat) (refl_fresnel trans_fresnel : list R)
  (refl_frac trans_frac : R) (nevents : nat) : result (list R) :=
  bind (add_loop (seq 1 nevents) (fun ev => (ev + nth ev samp_refl 0)%nat)
          (fun ev => refl_frac * sum_at refl_fresnel refl_indices ev) (zeros (2 * nevents + 1)))
    (fun a =>
  bind (add_loop (seq 1 nevents) (fun ev => (ev + nth ev samp_trans 0)%nat)
          (fun ev => trans_frac * sum_at trans_fresnel trans_indices ev) a)
    (fun a => Ok (map2 Rplus refl_events a))).

(** structcol/event_distribution.py:599-654 [calc_refl_event_fresnel_avg];
    [int(nan)] raises ValueError when no trajectory was reflected, or none was
    transmitted, and there is at least one event. *)
Definition avg_event (idx : list nat) : option Z :=
  let l := filter (fun i => negb (Nat.eqb i 0)) idx in
  match l with
  | [] => None
  | _ => Some (M_refractive_index.round_half_even (Rsum (map INR l) / INR (length l))) end.
Definition calc_refl_event_fresnel_avg (refl_events : list R)
  (refl_indices trans_indices : list nat) (refl_fresnel trans_fresnel : list R)
  (refl_frac trans_frac : R) (nevents : nat) : result (list R) :=
  match nevents, avg_event refl_indices, avg_event trans_indices with
  | O, _, _ => Ok (map2 Rplus refl_events (zeros 1))
  | _, Some ar, Some at_ =>
      bind (add_loop (seq 1 nevents) (fun ev => Z.to_nat (Z.of_nat ev + ar))
              (fun ev => refl_frac * sum_at refl_fresnel refl_indices ev)
              (zeros (2 * nevents + 1)))
        (fun a =>
      bind (add_loop (seq 1 nevents) (fun ev => Z.to_nat (Z.of_nat ev + at_))
              (fun ev => trans_frac * sum_at trans_fresnel trans_indices ev) a)
        (fun a => Ok (map2 Rplus refl_events a)))
  | _, _, _ => Err ValueError
  end.
