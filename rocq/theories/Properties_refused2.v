(** Errors that callers see, second part: C121, C84. *)
From Coq Require Import Lra Lia Psatz Reals List String.
From Verif Require Import Num Spec Spec_extra M_init M_montecarlo M_detector M_extra M_reflection L_num L_extra Properties_extra.
Import ListNotations.
Open Scope R_scope.

(** C121: an exit point without a direction.  If the first nearest exit point
    of some sampled pair of angles has no direction, the call raises
    IndexError. *)
Theorem C121_missing_direction : forall samples exits k1 radius n i,
  (n < length samples)%nat ->
  first_nearest (vscale radius (toward (fst (nth n samples (0, 0))) (snd (nth n samples (0, 0))))) exits i ->
  (length k1 <= i)%nat ->
  calc_directions samples exits k1 radius = Err IndexError.
Proof.
  intros samples exits k1 radius n i Hn Hi Hk. unfold calc_directions. destruct exits as [|e0 er] eqn:Ee; [destruct Hi as [H _]; cbn in H; lia|]. rewrite <- Ee in *.
  assert (He : exits <> []) by (rewrite Ee; discriminate).
  set (f := fun a : R * R => argmin (map (distance (sample_point radius (fst a) (snd a))) exits)).
  rewrite (proj2 (existsb_exists _ _)); [reflexivity|]. exists (f (nth n samples (0, 0))). split; [apply in_map, nth_In, Hn|].
  apply Nat.leb_le. replace (f (nth n samples (0, 0))) with i; [exact Hk|].
  eapply first_nearest_unique; [exact Hi|]. rewrite <- sample_point_toward. now apply argmin_nearest.
Qed.
Print Assumptions C121_missing_direction.
Example C121_missing_case : calc_directions [(0, 0)] [(0, 0, -2); (0, 0, 2)] [(1, 0, 0)] 2 = Err IndexError.
Proof.
  apply (C121_missing_direction _ _ _ _ 0 1); [cbn; lia| |cbn; lia].
  cbn [nth fst snd]. unfold first_nearest, toward, vscale, gap, vx, vy, vz. rewrite sin_0, cos_0. cbn [length fst snd].
  split; [lia|]. split; intros [|[|k]] H; try lia; cbn [nth fst snd]; lra.
Qed.

(** C84: structure factors that lack their arguments.  Tabulated data asked for
    but not given raise TypeError, a paracrystal dictionary without its sigma
    KeyError (with a form factor that is accepted). *)
Theorem C84_missing_arguments : forall factorial ang n x x_eff vf ft poly theta,
  ft = None \/ ft = Some "sphere"%string ->
  differential_cross_section factorial ang n x x_eff vf (S_name "data") ft poly None theta = Err TypeError
  /\ forall sdata, differential_cross_section factorial ang n x x_eff vf (S_dict "paracrystal" None) ft poly sdata theta = Err KeyError.
Proof.
  intros factorial ang n x x_eff vf ft poly theta [-> | ->]; unfold differential_cross_section; cbn [form_part bind]; unfold form_part;
    change (String.eqb "sphere" "sphere") with true; cbv iota; cbn [bind]; split; [reflexivity|intros; reflexivity|reflexivity|intros; reflexivity].
Qed.
Print Assumptions C84_missing_arguments.
Example C84_missing_case : differential_cross_section (fun _ => 1) (fun _ _ => (1, 1)) 1 [1] None 0.5 (S_name "data") (Some "sphere"%string) None None 1 = Err TypeError.
Proof. exact (proj1 (C84_missing_arguments _ _ _ _ _ _ _ _ _ (or_intror eq_refl))). Qed.
