(** Model of structcol/__init__.py (helpers).  No proofs in this file. *)
From Verif Require Export Num.
From Verif Require Import Spec.
Open Scope R_scope.

(** structcol/__init__.py:54-70 [refraction], one element of the array.
    NaN when |snell| > 1.  n_after = 0 is not modelled (division by zero). *)
Definition refraction (angle n_before n_after : R) : num :=
  let snell := n_before / n_after * sin angle in
  if Rltb 1 (Rabs snell) then nan else Some (asin snell).

(** structcol/__init__.py:87 magnitude of one vector (real components). *)
Definition magnitude (v : vec) : R :=
  sqrt (Rabs (vx v) ^ 2 + Rabs (vy v) ^ 2 + Rabs (vz v) ^ 2).

(** structcol/__init__.py:95 one vector divided by a magnitude; 0/0 is NaN. *)
Definition div_vec (v : vec) (m : R) : option vec :=
  if Reqb m 0 then None else Some (vx v / m, vy v / m, vz v / m).

(** structcol/__init__.py:73-97 [normalize] on an array of vectors.  The zero
    handling (lines 92-93) is decided by a test on the whole array:
    [magnitude.all() == 0] holds iff some magnitude is zero. *)
Definition normalize (return_nan : bool) (vs : list vec) : list (option vec) :=
  let ms := map magnitude vs in
  let all_nonzero := forallb (fun m => negb (Reqb m 0)) ms in
  let ms' := if negb return_nan && negb all_nonzero
             then map (fun m => if Reqb m 0 then 1 else m) ms else ms in
  map2 div_vec vs ms'.

(** [normalize] with the default return_nan=True, one vector (the array form
    then has no coupling between elements). *)
Definition normalize1 (v : vec) : option vec := div_vec v (magnitude v).

(** structcol/__init__.py:100-149 [select_events] on a 2-D array given by its
    rows (events) of columns (trajectories); [events] has one integer per
    trajectory.  Fancy indexing past the array raises IndexError. *)
Definition select_one (rows : list (list R)) (t : nat) (ev : Z) : result R :=
  if (ev <=? 0)%Z then Ok 0
  else match nth_error rows (Z.to_nat (ev - 1)) with
       | None => Err IndexError
       | Some row => match nth_error row t with
                     | None => Err IndexError
                     | Some v => Ok v
                     end
       end.
Fixpoint select_events_from (rows : list (list R)) (t : nat) (events : list Z)
  : result (list R) :=
  match events with
  | [] => Ok []
  | ev :: evs =>
      bind (select_one rows t ev) (fun v =>
      bind (select_events_from rows (S t) evs) (fun vs => Ok (v :: vs)))
  end.
Definition select_events (rows : list (list R)) (events : list Z)
  : result (list R) := select_events_from rows 0 events.

(** The same function seen from one trajectory: [col] is the trajectory's
    column (its value at each event), [ev] its event number, 0 = no event.
    Used by the per-trajectory part of the detector model; out-of-range
    numbers, which the code rejects with IndexError, give 0 here and are
    excluded by [find_event_indices] (indices never exceed nevents). *)
Definition select_col (col : list R) (ev : nat) : R :=
  match ev with O => 0 | S i => nth i col 0 end.
