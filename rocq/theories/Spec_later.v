(** How many events are enough, for C165. *)
From Coq Require Import Reals List.
From Verif Require Import Num Spec M_init M_montecarlo M_detector M_simulation Spec_mean.
Import ListNotations.
Open Scope R_scope.

(** The share of the trajectories that are still in the sample after their last
    event: both of their exit events are 0.  (1 for a run that returns NaN.) *)
Definition unfinished (r : result (option outcome)) : R :=
  match r with
  | Ok (Some o) =>
      fold_right Rplus 0 (map (fun x => if Nat.eqb (fst x + snd x) 0 then 1 else 0) (combine (o_refl_i o) (o_trans_i o))) / INR (length (o_refl_i o))
  | _ => 1
  end.
