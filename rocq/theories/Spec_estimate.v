(** Averages over independent trajectories, for C157. *)
From Coq Require Import Reals List Arith.
From Verif Require Import Num Spec M_init M_montecarlo M_detector M_simulation.
Import ListNotations.
Open Scope R_scope.

(** The numbers a run returns; 0 for a result that is NaN. *)
Definition refl_of (r : result (option outcome)) : R := match r with Ok (Some o) => o_refl o | _ => 0 end.
Definition trans_of (r : result (option outcome)) : R := match r with Ok (Some o) => o_trans o | _ => 0 end.
(** The light that leaves through the front (back) and is let through by the
    surface: the sums of refl_weights_pass/ntraj and trans_weights_pass/ntraj. *)
Definition front_of (r : result (option outcome)) : R :=
  match r with Ok (Some o) => fold_right Rplus 0 (o_refl_pass o) | _ => 0 end.
Definition back_of (r : result (option outcome)) : R :=
  match r with Ok (Some o) => fold_right Rplus 0 (o_trans_pass o) | _ => 0 end.
(** The light that the surfaces send back into the sample at the exits. *)
Definition sent_back_of (r : result (option outcome)) : R :=
  match r with Ok (Some o) => fold_right Rplus 0 (o_refl_fresnel o) + fold_right Rplus 0 (o_trans_fresnel o) | _ => 0 end.

(** Numbers K i, ..., K i + K - 1 of t. *)
Definition numbers_of (K : nat) (t : nat -> R) (i : nat) : nat -> R :=
  fun k => if Nat.ltb k K then t (i * K + k)%nat else 0.
(** The draws of many independent trajectories: trajectory i gets the draws
    that trajectory 0 of [dr] gets, made from its own K random numbers. *)
Definition many (K : nat) (dr : (nat -> R) -> draws) (t : nat -> R) : draws :=
  mk_draws (fun i => d_l0 (dr (numbers_of K t i)) 0%nat) (fun i => d_l1 (dr (numbers_of K t i)) 0%nat)
    (fun i => d_l2 (dr (numbers_of K t i)) 0%nat) (fun i => d_l3 (dr (numbers_of K t i)) 0%nat)
    (fun i => d_ang (dr (numbers_of K t i)) 0%nat) (fun n i => d_u (dr (numbers_of K t i)) n 0%nat)
    (fun d i => d_rang (dr (numbers_of K t i)) d 0%nat) (fun d i => d_rstep (dr (numbers_of K t i)) d 0%nat).

(** Draws as numpy makes them: uniform numbers in [0, 1), and the radius draw of
    a sphere not exactly 0. *)
Definition good_draws (D : draws) : Prop :=
  (forall i, 0 < d_l0 D i < 1) /\ forall n i, 0 <= d_u D n i < 1.
