(** C168: almost all light leaves an index-matched sphere.  Vocabulary in
    Spec_leaveball.v, Spec_leave.v, Spec_later.v, Spec_enough.v and Spec_mean.v. *)
From Coq Require Import Lra Lia Psatz Reals List.
From Verif Require Import Num Spec Spec_scat Spec_mean Spec_detector Spec_estimate Spec_diffuse Spec_later Spec_enough Spec_leave Spec_leaveball M_init M_montecarlo M_detector M_simulation M_scat
  L_num L_mean L_meta L_meta4 L_estimate L_enough L_later L_leave L_leaveball Properties_estimate Properties_simulation Properties_later Properties_leave.
From Coquelicot Require Import Coquelicot.
Import ListNotations.
Open Scope R_scope.

(** With the launch azimuths, scatterings and steps as the code draws them, the
    run returns numbers and the mean share of the trajectories still in the
    sphere after event j+2 is at most (1 - exp (-mu d))^j, for every phase
    function. *)
Theorem C168_inside : forall p lo n j spot mu_scat P D,
  0 <= lo <= PI -> List.Forall (fun x => 0 <= x) p -> 0 < total (map (angle_weight p lo) (seq 0 (length p))) ->
  (0 < n)%nat -> 0 < mu_scat -> matched_ball spot P -> good_draws D ->
  let e := S j in let run t := sphere_run (S e) n spot mu_scat P (with_launches p lo e t D) in
  (forall t, exists o, run t = Ok (Some o))
  /\ mean_at_most (n * (3 * e + 1)) (fun t => unfinished (run t)) (ball_rate mu_scat (p_thickness P) ^ j).
Proof.
  intros p lo n j spot mu P D Hlo Hpp Ht Hn Hmu (Hb & Hr & Hp & Hfd & Ha & Hd & Hsp & Hns & Hm & Hv) HD e run.
  destruct (ball_mean p lo Hlo Hpp Ht n j spot mu P D Hn Hmu Ha Hd Hsp Hb Hp Hns Hm HD) as (F & HF & M). fold e in HF, M.
  assert (Q : forall t, exists o, run t = Ok (Some o) /\ unfinished (Ok (Some o)) = total (map (fun i => still (film_view P (sp_traj (S e) spot mu P (with_launches p lo e t D) i))) (seq 0 n)) / INR n).
  { intros t. destruct (sphere_seen (S e) (S e) n spot mu P (with_launches p lo e t D) ltac:(lia) Hn Hmu Ha Hd Hsp Hb Hr Hp Hfd ltac:(lra) Hv (E_good p lo j D HD t) (S e) ltac:(lia)) as (_ & o & E1 & E2).
    exists o. split; [exact E1|exact E2]. }
  split; [intros t; destruct (Q t) as (o & E & _); exists o; exact E|].
  exists F, (ball_rate mu (p_thickness P) ^ j). split; [|split; [exact M|apply Rle_refl]].
  intros t. destruct (Q t) as (o & -> & ->). apply HF.
Qed.
Print Assumptions C168_inside.

(** What more events would change: the mean change of the reflectance, and that
    of the transmittance, is at most half of this, and a change of eps or more
    has at most the probability (1 - exp (-mu d))^j / (2 eps). *)
Theorem C168_changes : forall p lo n j more spot mu_scat P D,
  0 <= lo <= PI -> List.Forall (fun x => 0 <= x) p -> 0 < total (map (angle_weight p lo) (seq 0 (length p))) ->
  (0 < n)%nat -> 0 < mu_scat -> matched_ball spot P -> good_draws D ->
  let e := S j in (S e <= more)%nat ->
  let run k t := sphere_run k n spot mu_scat P (with_launches p lo e t D) in
  let bound := ball_rate mu_scat (p_thickness P) ^ j / 2 in
  forall part, part = refl_of \/ part = trans_of ->
  let change t := Rabs (part (run more t) - part (run (S e) t)) in
  mean_at_most (n * (3 * e + 1)) change bound
  /\ forall eps, 0 < eps -> rare (n * (3 * e + 1)) (fun t => eps <= change t) (bound / eps).
Proof.
  intros p lo n j more spot mu P D Hlo Hpp Ht Hn Hmu HB HD e He run bound part Hpart change.
  pose proof HB as (Hb & Hr & Hp & Hfd & Ha & Hd & Hsp & Hns & Hm & Hv).
  destruct (C168_inside p lo n j spot mu P D Hlo Hpp Ht Hn Hmu HB HD) as (_ & F & g & HF & M & Hg). fold e in HF, M.
  assert (Q : forall t, change t <= / 2 * F t).
  { intros t. destruct (C165_sphere (S e) more n spot mu P (with_launches p lo e t D) ltac:(lia) Hn Hmu Ha Hd Hsp Hb Hr Hp Hfd ltac:(lra) Hv (E_good p lo j D HD t)) as (_ & _ & C1 & C2).
    specialize (HF t). change (S e) with (S (S j)) in *. unfold change, run. destruct Hpart as [-> | ->]; lra. }
  assert (M2 : is_mean (n * (3 * e + 1)) (fun t => / 2 * F t) (/ 2 * g)) by (apply is_mean_scal; exact M).
  assert (B2 : / 2 * g <= bound) by (unfold bound; lra).
  split.
  - exists (fun t => / 2 * F t), (/ 2 * g). split; [exact Q|]. split; [exact M2|exact B2].
  - intros eps Hep. exists (fun t => / eps * (/ 2 * F t)), (/ eps * (/ 2 * g)). split; [|split; [|split]].
    + intros t. apply Rmult_le_pos; [left; now apply Rinv_0_lt_compat|]. refine (Rle_trans _ _ _ _ (Q t)). apply Rabs_pos.
    + intros t H. apply Rmult_le_reg_l with eps; [exact Hep|]. rewrite <- (Rmult_assoc eps (/ eps)), Rinv_r by lra. pose proof (Q t). lra.
    + apply is_mean_scal. exact M2.
    + unfold Rdiv. rewrite (Rmult_comm bound). apply Rmult_le_compat_l; [left; now apply Rinv_0_lt_compat|exact B2].
Qed.
Print Assumptions C168_changes.

(** The bound tends to 0: enough events make the share that stays, and the
    change more events could bring, as small as wanted. *)
Theorem C168_converges : forall mu_scat d, 0 < mu_scat -> 0 < d ->
  let rate := ball_rate mu_scat d in
  0 < rate < 1 /\ forall eps, 0 < eps -> exists J, forall j, (J <= j)%nat -> rate ^ j < eps.
Proof.
  intros mu d Hmu Hd rate.
  assert (K : 0 < exp (- (mu * d)) < 1).
  { split; [apply exp_pos|]. rewrite <- exp_0 at 1. apply exp_increasing. assert (0 < mu * d) by (apply Rmult_lt_0_compat; lra). lra. }
  assert (R0 : 0 < rate < 1) by (unfold rate, ball_rate; lra).
  split; [exact R0|]. intros eps He. destruct (pow_lt_1_zero rate ltac:(rewrite Rabs_pos_eq; lra) eps He) as [J HJ]. exists J. intros j Hj.
  specialize (HJ j ltac:(lia)). rewrite Rabs_pos_eq in HJ by (apply pow_le; lra). exact HJ.
Qed.
Print Assumptions C168_converges.

(** A sphere of the index around it, mean free path its diameter: 100
    trajectories, even phase function. *)
Definition leave_ball : params := mk_params 10 (4 / 3) (4 / 3) sphere 0 (PI / 2) None None false 20 (1 / 100) (1 / 50) None None None 0 None None.
Example C168_case : matched_ball 8 leave_ball /\ good_draws half_draws
  /\ forall eps, 0 < eps -> exists J, forall j more, (J <= j)%nat -> (S (S j) <= more)%nat ->
     let run k t := sphere_run k 100 8 (1 / 10) leave_ball (with_launches even_table 0 (S j) t half_draws) in
     mean_at_most (100 * (3 * S j + 1)) (fun t => unfinished (run (S (S j)) t)) eps
     /\ mean_at_most (100 * (3 * S j + 1)) (fun t => Rabs (refl_of (run more t) - refl_of (run (S (S j)) t))) eps.
Proof.
  assert (HB : matched_ball 8 leave_ball).
  { unfold matched_ball, plain, full_detection, valid_params, leave_ball. cbn [p_boundary p_run p_gonio p_kz0rot p_kz0refl p_nparticle p_nmatrix p_detection p_thickness p_muabs p_nmedium p_nsample p_fine p_nfront p_nback].
    repeat match goal with |- _ /\ _ => split end; try reflexivity; try lra; try discriminate. }
  assert (HD : good_draws half_draws).
  { split; [intros i; cbn; lra|intros n i; apply mod2_half]. }
  split; [exact HB|]. split; [exact HD|]. intros eps He.
  destruct C166_reach_case as [Tp _]. assert (P3 : 3 < PI) by (pose proof PI2_3_2; lra).
  assert (Hpp : List.Forall (fun x => 0 <= x) even_table).
  { unfold even_table. apply List.Forall_forall. intros x Hx. repeat (destruct Hx as [<-|Hx]; [lra|]). contradiction. }
  destruct (C168_converges (1 / 10) 10 ltac:(lra) ltac:(lra)) as [_ Hc]. destruct (Hc eps He) as [J HJ]. exists J. intros j more Hj Hmo run.
  specialize (HJ j Hj). change 10 with (p_thickness leave_ball) in HJ at 2. split.
  - destruct (C168_inside even_table 0 100 j 8 (1 / 10) leave_ball half_draws ltac:(lra) Hpp Tp ltac:(lia) ltac:(lra) HB HD) as (_ & F & g & HF & HM & Hg).
    exists F, g. split; [exact HF|]. split; [exact HM|]. apply Rle_trans with (1 := Hg). left. exact HJ.
  - destruct (C168_changes even_table 0 100 j more 8 (1 / 10) leave_ball half_draws ltac:(lra) Hpp Tp ltac:(lia) ltac:(lra) HB HD Hmo refl_of (or_introl eq_refl)) as ((F & g & HF & HM & Hg) & _).
    exists F, g. split; [exact HF|]. split; [exact HM|]. apply Rle_trans with (1 := Hg).
    assert (0 <= ball_rate (1 / 10) (p_thickness leave_ball) ^ j) by (apply pow_le; destruct (C168_converges (1 / 10) (p_thickness leave_ball) ltac:(lra) ltac:(cbn; lra)) as [[]]; lra). lra.
Qed.
