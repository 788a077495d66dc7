(** A concrete rough run that loses light (C140). *)
From Coq Require Import Lra Lia Psatz.
From Verif Require Import Num Spec M_init M_montecarlo M_detector M_scat M_fields M_simulation M_rough
  Spec_rough Spec_scat Spec_detector L_num L_init L_montecarlo L_montecarlo2 L_fields L_sampling L_slots L_accounting L_conserve L_exits L_outcomes L_simulation L_reflection L_rough.
Open Scope R_scope.
Definition thin (th : R) (kr kf : R) : params :=
  mk_params th 1 1 film 0 (PI / 2) (Some 3) None false 20 (1 / 100) 0 None (Some [kr]) (Some [kf]) 0 None None.

Lemma thin_tir th kr kf : choose_n_tir (thin th kr kf) = 1.
Proof. unfold choose_n_tir, thin. cbn. apply Rabs_R1. Qed.

Lemma sin_acos_lt c : 0 < c <= 1 -> 0 <= acos c < PI / 2 /\ sin (acos c) < 1.
Proof.
  intros Hc. pose proof PI_RGT_0. assert (A : acos c < PI / 2).
  { pose proof (acos_decreasing 0 c ltac:(lra) ltac:(lra) ltac:(lra)). rewrite acos_0 in *. lra. }
  pose proof (acos_bound c). split; [lra|]. rewrite <- sin_PI2. apply sin_increasing_1; lra.
Qed.

Lemma thin_some angs steps th kr kf p q k :
  0 < th -> vz p = 0 -> th <= vz q -> 0 < vz k <= 1 -> 0 < kr <= 1 ->
  exists o, calc_refl_trans 22 angs steps (thin th kr kf) false 0 [mk_traj [p; q] [k] [1]] = Ok (Some o).
Proof.
  intros Hth Hp Hq Hk Hkr. set (P := thin th kr kf). set (T0 := mk_traj [p; q] [k] [1]).
  pose proof (thin_tir th kr kf) as Etir. fold P in Etir.
  assert (Hg : good_params P 1).
  { unfold good_params. rewrite Etir. unfold P, thin. cbn. repeat split; try lra; try discriminate.
    all: intros l El; injection El as <-; (lra || reflexivity). }
  change [T0] with (map (fun _ : nat => T0) (seq 0 1)).
  change 22%nat with (S 21). set (fu := 21%nat). clearbody fu. cbn [calc_refl_trans].
  destruct (first_pass_film_ok P false (map (fun _ : nat => T0) (seq 0 1)) eq_refl) as [oq Eq]; [split; discriminate|].
  rewrite Eq. cbn [bind].
  destruct oq as [qq|].
  2:{ exfalso. unfold first_pass in Eq. cbv zeta in Eq. unfold fresnel_correct_enter in Eq. change (p_boundary P) with film in Eq.
      change (p_kz0rot P) with (Some [kr]) in Eq. change (p_kz0refl P) with (Some [kf]) in Eq. change (p_gonio P) with (@None (R * R * R)) in Eq.
      cbv beta iota in Eq. rewrite get_all_Some in Eq.
      cbn [get_angles] in Eq.
      rewrite pass_frac_ok in Eq by (constructor; [apply film_angle_le|constructor]). cbn [bind] in Eq.
      destruct (calc_outcome_weights _ _ _ _ _) as [[[rw tw] sw] ab]. destruct (fresnel_correct_exit _ _ _ _ _ _ _ _ _ _ _ _ _) as [x|e]; discriminate. }
  destruct (first_pass_slots_enter P false 1 (fun _ => T0) qq Hg Eq) as (inc & di & Hinc & Hdi & Hqq & Har & Hat & Hent).
  change (p_run P) with false. cbn [andb].
  assert (Ei : inc 0%nat = pf1 1 (Some 3) 1 (acos kr)).
  { unfold fresnel_correct_enter in Hent. change (p_boundary P) with film in Hent. change (p_kz0rot P) with (Some [kr]) in Hent. cbv beta iota in Hent.
    rewrite get_all_Some in Hent. cbn [get_angles] in Hent.
    rewrite pass_frac_ok in Hent by (constructor; [apply film_angle_le|constructor]). cbn [bind map seq] in Hent.
    rewrite Etir in Hent. unfold film_angle in Hent. rewrite Rabs_right in Hent by lra. injection Hent as E. symmetry. exact E. }
  assert (Hi : 0 < inc 0%nat).
  { rewrite Ei. destruct (sin_acos_lt kr Hkr). apply pf1_pos; try lra. intros n En; injection En as <-. lra. }
  assert (HT : wf_len T0 /\ dirs_ok T0).
  { unfold wf_len, dirs_ok, T0. cbn. repeat split; try lia. constructor; [lra|constructor]. }
  destruct HT as [Hw Hd].
  destruct (first_exit_physical 1 1 th T0 0 Hw Hd Hth ltac:(lra) ltac:(cbn; lia)) as [_ Hev].
  { intros j Hj. assert (j = 0)%nat as -> by lia. unfold T0. cbn [t_pos nth]. rewrite Hp. lra. }
  { apply no_tir_steep; unfold T0; cbn [t_dir nth]; try lra. unfold no_tir_film. replace (1 / 1) with 1 by field. rewrite Rabs_R1.
    rewrite (proj2 (Rltb_false 1 1)) by lra. apply Rltb_true. rewrite asin_1, cos_PI2, Rabs_right; lra. }
  destruct (Hev Hq) as [ti Hev'].
  assert (Eev : sl_ev P (fun _ => T0) 0 = (0%nat, 1%nat, 0%nat, ti)).
  { unfold sl_ev, sl_nt. rewrite Etir. exact Hev'. }
  assert (Hkn : 0 < sl_known P false 1 (fun _ => T0) inc).
  { unfold sl_known, sl_ab. cbn [seq map total].
    assert (Er : sl_rw P (fun _ => T0) inc 0 = 0) by (unfold sl_rw, sl_ri; change (p_gonio P) with (@None (R * R * R)); cbv iota; rewrite Eev; cbn [i_refl select_col]; ring).
    assert (Es : sl_sw P (fun _ => T0) inc 0 = 0) by (unfold sl_sw, sl_si; rewrite Eev; cbn [i_stuck select_col]; ring).
    assert (Et : sl_tw P (fun _ => T0) inc 0 = inc 0%nat).
    { unfold sl_tw, sl_ti, sl_tr. change (p_gonio P) with (@None (R * R * R)). cbv iota. rewrite Eev. cbn [i_trans select_col T0 t_w nth]. ring. }
    unfold sl_rp, sl_tp. rewrite Er, Es, Et. unfold sl_nt, sl_at, exit_angle, sl_ti, sl_tr. rewrite Eev, Etir.
    change (p_gonio P) with (@None (R * R * R)). change (p_boundary P) with film. cbv iota. cbn [i_trans].
    change (p_nback P) with (@None R). change (p_nmedium P) with 1.
    unfold film_exit_angle, film_angle, T0. cbn [t_dir map select_col nth]. rewrite Rabs_right by lra.
    destruct (sin_acos_lt (vz k) Hk). assert (0 < pf1 1 None 1 (acos (vz k))) by (apply pf1_pos; try lra; discriminate).
    assert (0 < inc 0%nat * pf1 1 None 1 (acos (vz k))) by (apply Rmult_lt_0_compat; assumption). lra. }
  rewrite Hqq. unfold sl_pass, distribute_ambig_traj_weights.
  change (p_gonio P) with (@None (R * R * R)). change (p_boundary P) with film.
  cbn [q_exit q_refl_det q_inc_refl_det q_trans_det q_stuck sl_exit x_refl_fresnel x_trans_fresnel x_refl_frac x_trans_frac].
  unfold ndiv. replace (Reqb (sl_known P false 1 (fun _ => T0) inc) 0) with false.
  2: { symmetry. apply Reqb_false. lra. }
  eauto.
Qed.
Lemma facet_law_nonneg r j : r <> 0 -> (j < 500)%nat -> 0 <= facet_law r j.
Proof. intros Hr Hj. rewrite <- facet_law_eq by exact Hj. now apply facet_weight_nonneg. Qed.
Lemma facet_law_pos r j : r <> 0 -> (0 < j < 499)%nat -> 0 < facet_law r j.
Proof.
  intros Hr Hj. rewrite <- facet_law_eq by lia. unfold facet_weight. rewrite (proj2 (Nat.eqb_neq j 499)) by lia.
  apply P_pos; [|exact Hr]. split; [|apply facet_in; lia]. rewrite facet_angle_at by lia.
  pose proof PI_RGT_0. assert (0 < INR j) by (apply lt_0_INR; lia). apply Rmult_lt_0_compat; lra.
Qed.

(** Every facet of positive probability is drawn by some [u]. *)
Lemma facet_reached r j : r <> 0 -> (0 < j < 499)%nat -> exists u, 0 <= u < 1 /\ picks (facet_law r) 500 u j.
Proof.
  intros Hr Hj. set (w := facet_law r). set (W := total (map w (seq 0 500))).
  assert (Hw : forall i, (i < 500)%nat -> 0 <= w i) by (intros; now apply facet_law_nonneg).
  assert (Hp : 0 < w j) by (now apply facet_law_pos).
  assert (HW : 0 < W) by (apply (total_pos_at w 500 j); [exact Hw|lia|exact Hp]).
  pose proof (total_seq_mono w 500 0 j Hw ltac:(lia)) as H0. cbn [seq map total] in H0.
  pose proof (total_seq_mono w 500 (S j) 500 Hw ltac:(lia)) as H1. fold W in H1.
  assert (ES : total (map w (seq 0 (S j))) = total (map w (seq 0 j)) + w j).
  { rewrite seq_S, map_app, total_app. cbn [map total Nat.add]. ring. }
  exists (total (map w (seq 0 j)) / W). 
  assert (E : total (map w (seq 0 j)) / W * W = total (map w (seq 0 j))) by (field; lra).
  split; [split|].
  - apply Rmult_le_pos; [exact H0|left; now apply Rinv_0_lt_compat].
  - apply (Rmult_lt_reg_r W); [exact HW|]. rewrite E. lra.
  - split; [lia|]. fold W. rewrite E. lra.
Qed.

Definition flat_draws : draws :=
  mk_draws (fun _ => 0) (fun _ => 0) (fun _ => 0) (fun _ => 0) (fun _ _ => (0, 0)) (fun _ _ => 1 / 2)
    (fun _ _ _ => (0, 0)) (fun _ _ _ => 0).
Definition thin_film (th : R) : params :=
  mk_params th 1 1 film 0 (PI / 2) (Some 3) None false 20 (1 / 100) 0 None None None 0 None None.

Lemma incident_normal : incident (at_fraction 0 0 0) (at_fraction 0 0 0) = ez.
Proof. unfold incident, at_fraction, ez. replace (0 + (0 - 0) * 0) with 0 by ring. rewrite sin_0, cos_0. apply (f_equal2 pair); [apply (f_equal2 pair)|]; ring. Qed.

Lemma thin_run r j : r <> 0 -> (0 < j < 499)%nat ->
  exists th u o, 0 < th /\ 0 <= u < 1 /\ picks (facet_law r) 500 u j
    /\ rough_film_run 1 1 1 0 0 0 0 1 r (thin_film th) flat_draws (fun _ => u) = Ok (Some o).
Proof.
  intros Hr Hj. destruct (facet_reached r j Hr Hj) as (u & Hu & Pu).
  destruct (rough_launch_ok 1 1 1 0 0 0 0 1 1 r (fun _ => 0) (fun _ => 0) (fun _ => 0) (fun _ => 0) (fun _ => u) ltac:(lra) Hr ltac:(intros; exact Hu))
    as (starts & facets & E0 & Hl & Hfac & Hst).
  destruct starts as [|s [|? ?]]; try discriminate. destruct (Hst 0%nat s eq_refl) as (k' & Es & Hk'). cbv zeta in Hk'.
  destruct (Hfac 0%nat ltac:(lia)) as (j' & _ & _ & Hf).
  change (uniform 0 0 0) with (at_fraction 0 0 0) in *.
  rewrite incident_normal in Hk'.
  destruct (rough_enter1 ez (facets 0%nat) 1 1) as [[a b] c] eqn:Er. cbn [fst] in Hk'. subst a.
  destruct (normal_facet _ 1 1 _ _ _ (conj (Rlt_le _ _ (proj1 Hf)) (proj2 Hf)) ltac:(lra) Er) as (Hb & _ & Hkz).
  pose proof (rough_refracted_unit _ _ _ _ _ _ _ ltac:(rewrite Rabs_R1; lra) Er) as Uk.
  assert (Hk1 : vz k' <= 1). { unfold unit, dot in Uk. nra. }
  set (st := step_of 1 (1 / 2)).
  assert (Hst' : 0 < st). { unfold st, step_of. replace (1 - 1 / 2) with (/ 2) by lra. rewrite ln_Rinv by lra. pose proof (ln_increasing 1 2 ltac:(lra) ltac:(lra)). rewrite ln_1 in *. lra. }
  assert (Hth : 0 < vz k' * st) by (apply Rmult_lt_0_compat; assumption).
  set (kr := dot ez (facet_normal (facets 0%nat))). set (kf := vz (mirror (facet_normal (facets 0%nat)) ez)).
  assert (Ekr : kr = cos (facets 0%nat)) by (unfold kr, dot, ez, facet_normal; cbn; ring).
  assert (Hkr : 0 < kr <= 1). { rewrite Ekr. split; [apply cos_gt_0; lra|apply COS_bound]. }
  destruct (thin_some (d_rang flat_draws) (d_rstep flat_draws) (vz k' * st / 2) kr kf (0 * 1, 0 * 1, 0) (vadd (0 * 1, 0 * 1, 0) (vscale st k')) k')
    as [o Eo]; try lra; try reflexivity.
  { unfold vadd, vscale. cbn [vz snd]. change (snd k') with (vz k'). lra. }
  exists (vz k' * st / 2), u, o. split; [lra|]. split; [exact Hu|]. split; [exact Pu|].
  unfold rough_film_run. change (d_l0 flat_draws) with (fun _ : nat => 0). change (d_l1 flat_draws) with (fun _ : nat => 0).
  change (d_l2 flat_draws) with (fun _ : nat => 0). change (d_l3 flat_draws) with (fun _ : nat => 0).
  change (p_nmedium (thin_film _)) with 1. change (p_nsample (thin_film _)) with 1.
  rewrite E0. cbn [bind seq map]. change (uniform 0 0 0) with (at_fraction 0 0 0). rewrite incident_normal. fold kr kf.
  unfold trajectories. rewrite sample_step_single by lra. cbn [bind].
  rewrite Es. unfold run_trajs, run_traj, scatter. cbn [Nat.sub repeat map seq scatter_loop bind].
  change (p_muabs (thin_film (vz k' * st / 2))) with 0.
  change (with_rough (thin_film (vz k' * st / 2)) [kr] [kf]) with (thin (vz k' * st / 2) kr kf).
  rewrite <- Eo. apply f_equal.
  change (map (fun row : list R => nth 0 row 0) (map (map (step_of 1)) (uniform_rows 1 1 (d_u flat_draws)))) with [st].
  unfold move, absorb, cumsum. cbn [map2 cumsum_from vcumsum_from]. rewrite !vadd_zero.
  replace (1 * exp (- (0 * (0 + st)))) with 1 by (rewrite Rmult_0_l, Ropp_0, exp_0; ring). reflexivity.
Qed.

Lemma rough_loss r j : r <> 0 -> (249 < j < 499)%nat ->
  exists th u o t, 0 < th /\ 0 <= u < 1 /\ picks (facet_law r) 500 u j
    /\ rough_film_run 1 1 1 0 0 0 0 1 r (thin_film th) flat_draws (fun _ => u) = Ok (Some o)
    /\ fresnel_pass_frac 1 (Some 3) 1 [facet_angle j] = Ok [t]
    /\ o_refl o + o_trans o = t /\ t < 1.
Proof.
  intros Hr Hj. destruct (thin_run r j Hr ltac:(lia)) as (th & u & o & Hth & Hu & Pu & Eo).
  exists th, u, o, (pf1 1 (Some 3) 1 (facet_angle j)).
  split; [exact Hth|]. split; [exact Hu|]. split; [exact Pu|]. split; [exact Eo|].
  pose proof PI_RGT_0.
  assert (Hjr : 250 <= INR j <= 498).
  { split; [replace 250 with (INR 250) by (rewrite INR_IZR_INZ; reflexivity)|replace 498 with (INR 498) by (rewrite INR_IZR_INZ; reflexivity)]; apply le_INR; lia. }
  assert (Ha : PI / 4 < facet_angle j < PI / 2) by (unfold facet_angle; split; nra).
  split; [apply pass_frac_ok; constructor; [lra|constructor]|].
  assert (Hv : valid_params (thin_film th) 1).
  { unfold valid_params, thin_film. cbn. repeat split; try lra; try discriminate. intros m Em. injection Em as <-. lra. }
  destruct (rough_run_ok 1 1 1 0 0 0 0 1 r (thin_film th) flat_draws (fun _ => u)) as (oo & facets & Eoo & Hfac & Hres);
    try lia; try (cbn; lra); try assumption; try reflexivity; try (intros; cbn; lra).
  rewrite Eo in Eoo. destruct (Hres o) as (_ & _ & _ & Hbal); [congruence|].
  destruct (Hfac 0%nat ltac:(lia)) as (j' & Pj' & Ef & _).
  assert (j' = j) as -> by (eapply (picks_unique (facet_law r) 500 u); [intros; now apply facet_law_nonneg|exact Pj'|exact Pu]).
  specialize (Hbal eq_refl eq_refl eq_refl eq_refl). cbv zeta in Hbal. cbn [seq map total] in Hbal.
  change (d_l2 flat_draws 0%nat) with 0 in Hbal. change (d_l3 flat_draws 0%nat) with 0 in Hbal.
  rewrite incident_normal, Ef in Hbal.
  assert (E1 : vz (mirror (facet_normal (facet_angle j)) ez) = - cos (2 * facet_angle j)).
  { rewrite cos_2a. unfold mirror, facet_normal, vsub, vscale, dot, ez. cbn. pose proof (cs2 (facet_angle j)). nra. }
  assert (E2 : dot ez (facet_normal (facet_angle j)) = cos (facet_angle j)) by (unfold dot, ez, facet_normal; cbn; ring).
  rewrite E1, E2 in Hbal.
  assert (C2 : cos (2 * facet_angle j) < 0) by (apply cos_lt_0; lra).
  rewrite (proj2 (Rltb_true _ _)) in Hbal by lra.
  assert (C1 : 0 < cos (facet_angle j)) by (apply cos_gt_0; lra).
  rewrite Rabs_right, acos_cos in Hbal by lra.
  change (p_nmedium (thin_film th)) with 1 in Hbal. change (p_nfront (thin_film th)) with (Some 3) in Hbal. change (p_nsample (thin_film th)) with 1 in Hbal.
  split; [rewrite Hbal; cbn [INR]; field|].
  apply pf1_bounds; try lra. intros n En; injection En as <-. lra.
Qed.
