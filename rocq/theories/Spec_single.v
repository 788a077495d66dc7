(** Light that leaves a film after one scattering, for C158. *)
From Coq Require Import Reals List.
From Verif Require Import Num Spec Spec_direct M_init M_montecarlo M_detector M_simulation.
Import ListNotations.
Open Scope R_scope.

(** The draws [D] with the first two steps of trajectory i drawn from t (2 i)
    and t (2 i + 1) (their fractional parts, numbers in [0, 1)). *)
Definition with_two_draws (t : nat -> R) (D : draws) : draws :=
  mk_draws (d_l0 D) (d_l1 D) (d_l2 D) (d_l3 D) (d_ang D)
    (fun n i => match n with O => frac_part (t (2 * i)%nat) | 1%nat => frac_part (t (2 * i + 1)%nat) | _ => d_u D n i end) (d_rang D) (d_rstep D).

(** The part of the incident light that leaves through the front (back) in
    trajectories that were scattered once, so leave at their second event:
    their share of refl_weight/ntraj (trans_weight/ntraj); 0 for a result that
    is NaN. *)
Definition once_reflected (r : result (option outcome)) : R :=
  match r with
  | Ok (Some o) => fold_right Rplus 0 (map (fun x => if Nat.eqb (fst x) 2 then snd x else 0) (combine (o_refl_i o) (o_refl_pass o)))
  | _ => 0
  end.
Definition once_transmitted (r : result (option outcome)) : R :=
  match r with
  | Ok (Some o) => fold_right Rplus 0 (map (fun x => if Nat.eqb (fst x) 2 then snd x else 0) (combine (o_trans_i o) (o_trans_pass o)))
  | _ => 0
  end.

(** The average of n numbers. *)
Definition average (n : nat) (x : nat -> R) : R := fold_right Rplus 0 (map x (seq 0 n)) / INR n.

(** Single scattering in a slab of thickness d with extinction mu, light coming
    along the normal, scattered at cosine c to the inward normal; all
    scattering towards that direction.  The integral over the depth z of the
    scattering of  mu exp(- mu z) times exp(- mu l(z)), with l(z) the way from
    depth z to the surface:
    - backwards (c < 0): l(z) = z/|c|;
    - forwards (c > 0): l(z) = (d - z)/c. *)
Definition slab_back (mu d c : R) : R := Rabs c / (1 + Rabs c) * (1 - exp (- (mu * d * (1 + / Rabs c)))).
Definition slab_ahead (mu d c : R) : R :=
  if Reqb c 1 then mu * d * exp (- (mu * d)) else c / (1 - c) * (exp (- (mu * d)) - exp (- (mu * d / c))).
