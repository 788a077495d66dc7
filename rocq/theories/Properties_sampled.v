(** C167: the whole calculation follows the phase function it computes. *)
From Coq Require Import Lra Lia Psatz Reals List.
From Verif Require Import Num Spec Spec_scat Spec_mean Spec_direct Spec_estimate Spec_diffuse Spec_enough Spec_leave Spec_sampled
  M_init M_montecarlo M_detector M_simulation M_absorbing M_scat M_scat_cplx M_workflow
  L_num L_sampling L_draws L_sizes L_diffuse L_leave Properties_simulation Properties_workflow Properties_scat_cplx Properties_workflow2 Properties_leave.
From Coquelicot Require Import Coquelicot.
Import ListNotations.
Open Scope R_scope.

(** ** Only the angles of these trajectories and events are read *)
Lemma run_trajs_angles nev mua ang ang' steps l : forall i,
  (forall j k, (i <= j < i + length l)%nat -> (k < nev - 1)%nat -> ang j k = ang' j k) ->
  run_trajs nev mua ang steps i l = run_trajs nev mua ang' steps i l.
Proof.
  induction l as [|s l IH]; intros i H; [reflexivity|]. cbn [run_trajs].
  rewrite (IH (S i)) by (intros j k Hj Hk; apply H; cbn [length]; lia).
  assert (E : run_traj nev mua (ang i) (map (fun row => nth i row 0) steps) s = run_traj nev mua (ang' i) (map (fun row => nth i row 0) steps) s).
  { unfold run_traj. destruct s as [[p d] w]. destruct d as [k|]; [|reflexivity].
    replace (map (ang i) (seq 0 (nev - 1))) with (map (ang' i) (seq 0 (nev - 1))); [reflexivity|].
    apply map_ext_in. intros k' Hk. apply in_seq in Hk. symmetry. apply H; cbn [length]; lia. }
  now rewrite E.
Qed.
Definition same_but_angles (nev ntraj : nat) (D D' : draws) : Prop :=
  d_l0 D = d_l0 D' /\ d_l1 D = d_l1 D' /\ d_l2 D = d_l2 D' /\ d_l3 D = d_l3 D' /\ d_u D = d_u D'
  /\ d_rang D = d_rang D' /\ d_rstep D = d_rstep D'
  /\ forall i k, (i < ntraj)%nat -> (k < nev - 1)%nat -> d_ang D i k = d_ang D' i k.
Lemma trajectories_angles nev ntraj mu mua D D' starts : length starts = ntraj -> same_but_angles nev ntraj D D' ->
  trajectories nev ntraj mu mua D starts = trajectories nev ntraj mu mua D' starts.
Proof.
  intros L (_ & _ & _ & _ & Eu & _ & _ & Ea). unfold trajectories. rewrite Eu. destruct (sample_step _ _ _ _ _ _) as [st|]; [|reflexivity].
  cbn [bind]. apply run_trajs_angles. intros j k Hj Hk. apply Ea; lia.
Qed.
Lemma film_run_angles nev ntraj spot tmin tmax pmin pmax mu P D D' : same_but_angles nev ntraj D D' ->
  film_run nev ntraj spot tmin tmax pmin pmax mu P D = film_run nev ntraj spot tmin tmax pmin pmax mu P D'.
Proof.
  intros H. unfold film_run. pose proof H as (E0 & E1 & E2 & E3 & _ & Er & Es & _). rewrite E0, E1, E2, E3, Er, Es.
  unfold initialize_film. cbn [bind].
  rewrite (trajectories_angles nev ntraj mu (p_muabs P) D D') by (exact H || now rewrite map_length, seq_length). reflexivity.
Qed.
Lemma sphere_run_angles nev ntraj spot mu P D D' : same_but_angles nev ntraj D D' ->
  sphere_run nev ntraj spot mu P D = sphere_run nev ntraj spot mu P D'.
Proof.
  intros H. unfold sphere_run. pose proof H as (E0 & E1 & _ & _ & _ & Er & Es & _). rewrite E0, E1, Er, Es.
  unfold initialize_sphere. cbn [bind].
  rewrite (trajectories_angles nev ntraj mu (p_muabs P) D D') by (exact H || now rewrite map_length, seq_length). reflexivity.
Qed.

(** ** sample_angles *)
Lemma sample_ok p lo a b :
  0 <= lo <= PI -> List.Forall (fun x => 0 <= x) p -> 0 < total (map (angle_weight p lo) (seq 0 (length p))) ->
  sample_angle_1d p lo a b = Ok (polar p lo b, 2 * PI * a).
Proof.
  intros Hlo Hp Ht. pose proof (angle_split p lo Hlo Hp Ht a b) as Q.
  destruct (angle_1d p lo 0 0 Hlo Hp ltac:(lra) Ht) as (k & E & _).
  unfold sample_angle_1d in *. unfold choice in *. destruct (get_all _) as [q|]; [|discriminate].
  destruct (existsb _ q); [discriminate|]. destruct (Rltb _ _); [discriminate|]. cbn [bind] in *. now rewrite Q.
Qed.
Lemma sampled_rows nev ntraj p lo up ut :
  0 <= lo <= PI -> List.Forall (fun x => 0 <= x) p -> 0 < total (map (angle_weight p lo) (seq 0 (length p))) ->
  exists rows, sample_angles_1d nev ntraj p lo up ut = Ok rows
    /\ forall k i, (k < nev - 1)%nat -> (i < ntraj)%nat -> sample_angle_1d p lo (up k i) (ut k i) = Ok (nth i (nth k rows []) (0, 0)).
Proof.
  intros Hlo Hp Ht. unfold sample_angles_1d.
  destruct (events_of_ok (fun e i => sample_angle_1d p lo (up e i) (ut e i)) (fun e i a => sample_angle_1d p lo (up e i) (ut e i) = Ok a) (nev - 1) ntraj)
    as (rows & E & L & H).
  - intros e i _ _. exists (polar p lo (ut e i), 2 * PI * up e i). split; apply sample_ok; assumption.
  - exists rows. split; [exact E|]. intros k i Hk Hi.
    destruct (nth_error rows k) as [row|] eqn:Er; [|apply nth_error_None in Er; lia].
    destruct (H k row Er) as [Lr Hr]. rewrite (nth_error_nth rows k [] Er).
    destruct (nth_error row i) as [a|] eqn:Ea; [|apply nth_error_None in Ea; lia].
    rewrite (nth_error_nth row i (0, 0) Ea). now apply Hr.
Qed.
Lemma after_sampled run I nev ntraj P D up ut o p mu :
  (forall mu P D D', same_but_angles nev ntraj D D' -> run mu P D = run mu P D') ->
  0 <= s_min I <= PI -> List.Forall (fun x => 0 <= x) p -> 0 < total (map (angle_weight p (s_min I)) (seq 0 (length p))) ->
  o_p o = map Some p -> o_mu o = Some mu ->
  after_scat run I nev ntraj P D up ut o = run mu (set_muabs P (o_muabs o)) (sampled_draws p (s_min I) up ut D).
Proof.
  intros Hrun Hlo Hp Ht Ep Em. unfold after_scat. rewrite Ep, get_all_some.
  destruct (sampled_rows nev ntraj p (s_min I) up ut Hlo Hp Ht) as (rows & Er & H). rewrite Er. cbn [bind]. rewrite Em.
  apply Hrun. unfold same_but_angles, set_angles, sampled_draws. cbn [d_l0 d_l1 d_l2 d_l3 d_u d_rang d_rstep d_ang].
  do 7 (split; [reflexivity|]). intros i k Hi Hk. now rewrite (H k i Hk Hi).
Qed.

(** C167.  If calc_scat returns the phase function [p] and the coefficient [mu],
    the whole calculation is the Monte Carlo run with scattering coefficient mu,
    calc_scat's absorption coefficient, and scattering k of trajectory i drawn
    from p with the (k, i) random numbers of sample_angles: no row and no column
    is left out, shifted, or used twice. *)
Theorem C167_angles : forall factorial ang mie integ I o p mu nevents ntraj P D up ut,
  calc_scat_any factorial ang mie integ I = Ok o -> o_p o = map Some p -> o_mu o = Some mu ->
  0 <= s_min I <= PI -> List.Forall (fun x => 0 <= x) p -> 0 < total (map (angle_weight p (s_min I)) (seq 0 (length p))) ->
  let D' := sampled_draws p (s_min I) up ut D in let P' := set_muabs P (o_muabs o) in
  (forall spot tmin tmax pmin pmax,
     film_workflow_any factorial ang mie integ I nevents ntraj spot tmin tmax pmin pmax P D up ut
     = film_run nevents ntraj spot tmin tmax pmin pmax mu P' D')
  /\ (forall spot, sphere_workflow_any factorial ang mie integ I nevents ntraj spot P D up ut = sphere_run nevents ntraj spot mu P' D').
Proof.
  intros factorial ang mie integ I o p mu nev ntraj P D up ut Eo Ep Em Hlo Hp Ht D' P'. split.
  - intros spot tmin tmax pmin pmax. unfold film_workflow_any, workflow_any. rewrite Eo. cbn [bind].
    apply (after_sampled (film_run nev ntraj spot tmin tmax pmin pmax)); try assumption. intros. now apply film_run_angles.
  - intros spot. unfold sphere_workflow_any, workflow_any. rewrite Eo. cbn [bind].
    apply (after_sampled (sphere_run nev ntraj spot)); try assumption. intros. now apply sphere_run_angles.
Qed.
Print Assumptions C167_angles.
(** The same for samples that do not absorb, whose form factors calc_scat takes
    from mie.calc_ang_dist. *)
Theorem C167_angles_real : forall factorial ang special I o p mu nevents ntraj P D up ut,
  calc_scat factorial ang special I = Ok o -> o_p o = map Some p -> o_mu o = Some mu ->
  0 <= s_min I <= PI -> List.Forall (fun x => 0 <= x) p -> 0 < total (map (angle_weight p (s_min I)) (seq 0 (length p))) ->
  let D' := sampled_draws p (s_min I) up ut D in let P' := set_muabs P (o_muabs o) in
  (forall spot tmin tmax pmin pmax,
     film_workflow factorial ang special I nevents ntraj spot tmin tmax pmin pmax P D up ut
     = film_run nevents ntraj spot tmin tmax pmin pmax mu P' D')
  /\ (forall spot, sphere_workflow factorial ang special I nevents ntraj spot P D up ut = sphere_run nevents ntraj spot mu P' D').
Proof.
  intros factorial ang special I o p mu nev ntraj P D up ut Eo Ep Em Hlo Hp Ht D' P'. split.
  - intros spot tmin tmax pmin pmax. unfold film_workflow, workflow. rewrite Eo. cbn [bind].
    apply (after_sampled (film_run nev ntraj spot tmin tmax pmin pmax)); try assumption. intros. now apply film_run_angles.
  - intros spot. unfold sphere_workflow, workflow. rewrite Eo. cbn [bind].
    apply (after_sampled (sphere_run nev ntraj spot)); try assumption. intros. now apply sphere_run_angles.
Qed.
Print Assumptions C167_angles_real.

(** From the description of the sample to the light that leaves: in the whole
    calculation for a smooth film, with steps and angles drawn from independent
    uniform numbers, the mean share of the trajectories still inside falls with
    the number of events as fast as the phase function that calc_scat computes
    brings light beyond total reflection. *)
Theorem C167_leaves : forall factorial ang mie integ I o p mu c beta n j spot tmin tmax pmin pmax P D,
  calc_scat_any factorial ang mie integ I = Ok o -> o_p o = map Some p -> o_mu o = Some mu ->
  0 <= s_min I <= PI -> List.Forall (fun x => 0 <= x) p -> 0 < total (map (angle_weight p (s_min I)) (seq 0 (length p))) ->
  (0 < n)%nat -> 0 < mu -> 0 <= o_muabs o -> plain_film P -> (forall n i, 0 <= d_u D n i < 1) ->
  0 < c -> 1 - (p_nmedium P / p_nsample P) ^ 2 <= c ^ 2 -> reaches p (s_min I) c beta ->
  let e := S j in
  mean_at_most (n * (3 * e))
    (fun t => inside_share (film_workflow_any factorial ang mie integ I (S e) n spot tmin tmax pmin pmax P (with_steps e t D)
                              (azimuth_number e t) (polar_number e t)))
    (stay_rate mu (p_thickness P) c beta ^ j).
Proof.
  intros factorial ang mie integ I o p mu c beta n j spot tmin tmax pmin pmax P D Eo Ep Em Hlo Hp Ht Hn Hmu Ha HP Hu Hc Hcc HR e.
  assert (HP' : plain_film (set_muabs P (o_muabs o))).
  { destruct HP as (Hb & Hr & Hg & Hk1 & Hk2 & Hpp & Hz & Hth & Ha' & Hm & Hf & Hbk). unfold plain_film, set_muabs.
    cbn [p_boundary p_run p_gonio p_kz0rot p_kz0refl p_nparticle p_zlow p_thickness p_muabs p_nmedium p_nsample p_nfront p_nback].
    do 8 (split; [assumption|]). split; [exact Ha|]. split; [exact Hm|]. split; assumption. }
  destruct (C166_inside p (s_min I) c beta n j spot tmin tmax pmin pmax mu (set_muabs P (o_muabs o)) D Hlo Hp Ht Hn Hmu HP' Hu Hc Hcc HR) as (F & g & HF & HM & Hg).
  exists F, g. split; [|split; [exact HM|exact Hg]]. intros t. refine (Rle_trans _ _ _ _ (HF t)). right. f_equal.
  destruct (C167_angles factorial ang mie integ I o p mu (S e) n P (with_steps e t D) (azimuth_number e t) (polar_number e t) Eo Ep Em Hlo Hp Ht) as [Q _].
  rewrite Q. apply film_run_angles. unfold same_but_angles, sampled_draws, with_steps, with_scatterings.
  cbn [d_l0 d_l1 d_l2 d_l3 d_u d_rang d_rstep d_ang]. do 7 (split; [reflexivity|]).
  intros i k Hi Hk. rewrite (proj2 (Nat.ltb_lt k (S j))) by (unfold e in Hk; lia). reflexivity.
Qed.
Print Assumptions C167_leaves.

(** An absorbing sample in a medium of the same index: 100 trajectories through
    the film that calc_scat describes. *)
Definition matched_film : params := mk_params 10 1.2 1.2 film 0 (PI / 2) None None false 20 (1 / 100) 0 None None None 0 None None.
Lemma cos_above u b : - b <= u <= b -> 1 - b ^ 2 / 2 <= Rabs (cos u).
Proof.
  intros H. apply Rle_trans with (cos u); [|apply Rle_abs]. replace u with (2 * (u / 2)) by field. rewrite cos_2a_sin.
  assert (G : forall v, 0 <= v -> Rabs (sin v) <= v).
  { intros v Hv. destruct (Rle_dec v PI) as [L|L].
    - rewrite Rabs_pos_eq by (apply sin_ge_0; lra). destruct (Req_dec v 0) as [->|N]; [rewrite sin_0; lra|left; apply sin_lt_x; lra].
    - assert (Rabs (sin v) <= 1) by (apply Rabs_le, SIN_bound). pose proof PI2_3_2. lra. }
  assert (L : Rabs (sin (u / 2)) <= b / 2).
  { destruct (Rle_dec 0 (u / 2)) as [L|L]; [apply Rle_trans with (1 := G _ L); lra|].
    rewrite <- Rabs_Ropp, <- sin_neg. apply Rle_trans with (1 := G (- (u / 2)) ltac:(lra)). lra. }
  pose proof (Rabs_pos (sin (u / 2))) as L0. pose proof (pow2_abs (sin (u / 2))) as A1. cbn [pow] in *. nra.
Qed.
Example C167_case : exists o p mu beta, calc_scat_any (fun _ => 1) isotropic flat_mie flat_integ dyed_dilute = Ok o
  /\ o_p o = map Some p /\ o_mu o = Some mu /\ 0 < beta
  /\ 0 <= stay_rate mu 10 (1 / 10) beta < 1
  /\ forall j, mean_at_most (100 * (3 * S j))
       (fun t => inside_share (film_workflow_any (fun _ => 1) isotropic flat_mie flat_integ dyed_dilute (S (S j)) 100 1 0 0 0 (2 * PI) matched_film
                                 (with_steps (S j) t half_draws) (azimuth_number (S j) t) (polar_number (S j) t)))
       (stay_rate mu 10 (1 / 10) beta ^ j).
Proof.
  destruct dyed_dilute_ok as [S1 S2]. assert (P3 : 3 < PI) by (pose proof PI2_3_2; lra). pose proof PI_4 as P4.
  destruct (C126_coefficients (fun _ => 1) isotropic flat_mie flat_integ dyed_dilute (1.2, 0.01) S1 S2)
    as (o & P0 & S0 & xe & rho & m & Eo & Em & _ & Hr & HPS & Emu & Hm0 & Hav & _ & Eab & Hq).
  { cbn. lra. } { cbn. lra. } { intros. cbn. lra. } { intros k par perp d a lo hi _ _ _. cbn. lra. }
  assert (Em1 : m = 1) by (cbn in Hav; now destruct Hav as (r & _ & ->)).
  assert (Q2 : forall t, In t (scat_grid dyed_dilute) -> P0 t + S0 t = 2).
  { intros t Ht. specialize (HPS t Ht). cbn in HPS. injection HPS as <- <-. lra. }
  assert (G : scat_grid dyed_dilute = map (grid 0.1 PI 3) (seq 0 3)) by (unfold scat_grid; rewrite linspace_grid; reflexivity).
  assert (Tot : total (map (fun t => P0 t + S0 t) (scat_grid dyed_dilute)) = 6).
  { transitivity (total (map (fun _ : R => 2) (scat_grid dyed_dilute))); [f_equal; apply map_ext_in; exact Q2|]. rewrite G. cbn [map seq total]. ring. }
  destruct Hq as (q & Ep & _ & Hq); [rewrite Tot; lra|]. rewrite Tot in Hq.
  assert (Q3 : forall t, In t (scat_grid dyed_dilute) -> q t = 1 / 3) by (intros t Ht; destruct (Hq t Ht) as [_ E]; rewrite (Q2 t Ht) in E; lra).
  set (p := [1 / 3; 1 / 3; 1 / 3]).
  assert (Ep' : o_p o = map Some p).
  { rewrite Ep. transitivity (map (fun _ : R => Some (1 / 3)) (scat_grid dyed_dilute)); [apply map_ext_in; intros t Ht; now rewrite Q3|]. rewrite G. reflexivity. }
  clear Ep Hq Q3 Tot G Q2 HPS Hav Em. subst m.
  assert (G0 : grid 0.1 PI 3 0 = 1 / 10) by (unfold grid; cbn [INR Nat.sub]; lra).
  assert (G1 : grid 0.1 PI 3 1 = PI / 2 + 1 / 20) by (unfold grid; cbn [INR Nat.sub]; lra).
  assert (G2 : grid 0.1 PI 3 2 = PI) by (unfold grid; cbn [INR Nat.sub]; lra).
  change 0.1 with (s_min dyed_dilute) in G0, G1, G2. set (lo := s_min dyed_dilute) in *. assert (Hlo : 0 <= lo <= PI) by (unfold lo; cbn; lra).
  assert (W0 : angle_weight p lo 0 = 1 / 3 * sin (1 / 10)) by (unfold angle_weight; change (length p) with 3%nat; rewrite G0; reflexivity).
  assert (W1 : angle_weight p lo 1 = 1 / 3 * cos (1 / 20)).
  { unfold angle_weight; change (length p) with 3%nat; rewrite G1. change (nth 1 p 0) with (1 / 3). rewrite <- cos_sin. reflexivity. }
  assert (W2 : angle_weight p lo 2 = 0) by (unfold angle_weight; change (length p) with 3%nat; rewrite G2, sin_PI; ring).
  set (s := sin (1 / 10)) in *. assert (Hs : 0 < s <= 1 / 10) by (unfold s; split; [apply sin_gt_0; lra|left; apply sin_lt_x; lra]).
  assert (C20 : 9 / 10 <= cos (1 / 20) <= 1).
  { split; [|apply COS_bound]. replace (1 / 20) with (2 * (1 / 40)) by lra. rewrite cos_2a_sin.
    assert (0 < sin (1 / 40) < 1 / 40) by (split; [apply sin_gt_0; lra|apply sin_lt_x; lra]). nra. }
  set (k := cos (1 / 20)) in *.
  assert (Tt : total (map (angle_weight p lo) (seq 0 (length p))) = 1 / 3 * (s + k)).
  { change (length p) with 3%nat. cbn [seq map total]. rewrite W0, W1, W2. ring. }
  assert (Tp : 0 < total (map (angle_weight p lo) (seq 0 (length p)))) by (rewrite Tt; lra).
  assert (Hp : List.Forall (fun x => 0 <= x) p).
  { apply List.Forall_forall. intros x Hx. unfold p in Hx. repeat (destruct Hx as [<-|Hx]; [lra|]). contradiction. }
  clearbody s k.
  assert (S0' : s / 2 <= share (angle_weight p lo) (length p) 0).
  { unfold share. rewrite Tt, W0. apply Rmult_le_reg_r with (1 / 3 * (s + k)); [lra|]. replace (1 / 3 * s / (1 / 3 * (s + k)) * (1 / 3 * (s + k))) with (1 / 3 * s) by (field; lra). clear - Hs C20. assert (s * (s + k) <= s * 2) by (apply Rmult_le_compat_l; lra). lra. }
  assert (S1' : s / 2 <= share (angle_weight p lo) (length p) 1).
  { unfold share. rewrite Tt, W1. apply Rmult_le_reg_r with (1 / 3 * (s + k)); [lra|]. replace (1 / 3 * k / (1 / 3 * (s + k)) * (1 / 3 * (s + k))) with (1 / 3 * k) by (field; lra). clear - Hs C20. assert (s * (s + k) <= 1 / 10 * 2) by (apply Rmult_le_compat; lra). lra. }
  set (beta := s / 2 * ((3 / 20 - 1 / 10) / 2) * (sqrt (3 / 20 - 1 / 10) / (2 * PI))).
  assert (HR : reaches p lo (1 / 10) beta).
  { apply C166_reach; [exact Hlo|exact Hp|exact Tp|lra|lra|lra|]. change (length p) with 3%nat in *. intros a Ha.
    destruct (Rle_dec a 1) as [L|L]; [|destruct (Rle_dec a (26 / 10)) as [L2|L2]].
    - exists 0%nat. split; [lia|]. split; [exact S0'|]. left. rewrite G0. refine (Rle_trans _ _ _ _ (cos_above _ 1 _)); lra.
    - exists 1%nat. split; [lia|]. split; [exact S1'|]. left. rewrite G1. refine (Rle_trans _ _ _ _ (cos_above _ (11 / 10) _)); lra.
    - exists 0%nat. split; [lia|]. split; [exact S0'|]. right. rewrite G0. replace (a + 1 / 10) with (- (PI - a - 1 / 10) + PI) by ring. rewrite neg_cos, Rabs_Ropp, cos_neg.
      refine (Rle_trans _ _ _ _ (cos_above _ (13 / 10) _)); lra. }
  assert (Hb : 0 < beta).
  { unfold beta. apply Rmult_lt_0_compat; [lra|]. apply Rdiv_lt_0_compat; [apply sqrt_lt_R0; lra|lra]. }
  exists o, p, (rho * 1), beta. split; [exact Eo|]. split; [exact Ep'|]. split; [exact Emu|]. split; [exact Hb|]. split.
  - apply (C166_converges p lo (1 / 10) beta (rho * 1) 10); try assumption; lra.
  - intros j. apply (C167_leaves (fun _ => 1) isotropic flat_mie flat_integ dyed_dilute o p (rho * 1) (1 / 10) beta 100 j 1 0 0 0 (2 * PI) matched_film half_draws);
      try assumption; try lia; try lra.
    + rewrite Eab. cbn. apply Rmult_le_pos; [|lra]. apply Rmult_le_pos; lra.
    + unfold plain_film, matched_film. cbn [p_boundary p_run p_gonio p_kz0rot p_kz0refl p_nparticle p_zlow p_thickness p_muabs p_nmedium p_nsample p_nfront p_nback].
      do 7 (split; [reflexivity|]). split; [lra|]. split; [lra|]. split; [lra|]. split; intros mm E; discriminate.
    + intros. apply mod2_half.
    + cbn [matched_film p_nmedium p_nsample]. replace (1.2 / 1.2) with 1 by lra. lra.
Qed.
