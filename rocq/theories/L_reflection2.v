(** Bookkeeping of the single-scattering reflectance. *)
From Verif Require Import Num Spec Spec_scatter L_num L_trapezoid M_model M_montecarlo M_reflection Spec_reflection
  L_montecarlo2 L_fresnel L_slots L_reflection.
From Coq Require Import Lia Lra.
Open Scope R_scope.

Lemma k_pos A : geometry_ok A -> 0 < wavenumber A.
Proof.
  intros (H1 & H2 & H3 & _). unfold wavenumber. pose proof PI_RGT_0.
  apply Rmult_lt_0_compat; [nra|now apply Rinv_0_lt_compat].
Qed.

Lemma tot_sigma A Q w : geometry_ok A ->
  tot_cs A Q w = cross_sec (wavenumber A) (2 * PI) (total_angles A) (fun t => Q t * w t).
Proof.
  intros G. pose proof (k_pos A G) as K. unfold tot_cs, cross_sec, k2_of. fold (wavenumber A).
  rewrite (trap_int_ext _ (fun t => / wavenumber A ^ 2 * (Q t * w t * sin t))).
  2:{ intros t _. field. lra. }
  rewrite trap_int_scale. field. lra.
Qed.

Lemma det_sigma A Q T : geometry_ok A ->
  det_cs A Q T = cross_sec (wavenumber A) (azimuth A) (detected_angles A) (fun t => Q t * T t).
Proof.
  intros G. pose proof (k_pos A G) as K. unfold det_cs, cross_sec, k2_of. fold (wavenumber A). fold (azimuth A).
  rewrite (trap_int_ext _ (fun t => / wavenumber A ^ 2 * (Q t * T t * sin t))).
  2:{ intros t _. field. lra. }
  rewrite trap_int_scale. field. lra.
Qed.

Lemma sigma_ext_fun k azi g f h : (forall t, In t g -> f t = h t) -> cross_sec k azi g f = cross_sec k azi g h.
Proof. intros H. unfold cross_sec. f_equal. apply trap_int_ext. intros t Ht. now rewrite H. Qed.

Lemma sigma_plus k azi g f h :
  cross_sec k azi g (fun t => f t + h t) = cross_sec k azi g f + cross_sec k azi g h.
Proof.
  unfold cross_sec. rewrite (trap_int_ext _ (fun t => f t * sin t + h t * sin t)) by (intros; ring).
  rewrite trap_int_plus. ring.
Qed.
Lemma sigma_scale k azi g c f : cross_sec k azi g (fun t => c * f t) = c * cross_sec k azi g f.
Proof.
  unfold cross_sec. rewrite (trap_int_ext _ (fun t => c * (f t * sin t))) by (intros; ring).
  rewrite trap_int_scale. ring.
Qed.
Lemma sigma_le k azi g f h : 0 < k -> 0 <= azi -> ascending g ->
  (forall t, In t g -> 0 <= t <= PI) -> (forall t, In t g -> f t <= h t) ->
  cross_sec k azi g f <= cross_sec k azi g h.
Proof.
  intros K Az Ha Hr H. unfold cross_sec. apply Rmult_le_compat_l.
  - unfold Rdiv. apply Rmult_le_pos; [exact Az|]. left. apply Rinv_0_lt_compat, pow_lt, K.
  - apply trap_int_le; [exact Ha|]. intros t Ht. apply Rmult_le_compat_r; [|now apply H].
    apply sin_ge_0; now apply Hr.
Qed.
Lemma sigma_nonneg k azi g f : 0 < k -> 0 <= azi -> ascending g ->
  (forall t, In t g -> 0 <= t <= PI) -> (forall t, In t g -> 0 <= f t) -> 0 <= cross_sec k azi g f.
Proof.
  intros K Az Ha Hr H.
  replace 0 with (cross_sec k azi g (fun _ => 0)).
  - now apply sigma_le.
  - unfold cross_sec. rewrite (trap_int_ext _ (fun _ => 0)) by (intros; ring).
    rewrite trap_int_zero. ring.
Qed.

Lemma cscat_sigma A P S : geometry_ok A -> cscat A P S = sigma_scat A P S.
Proof.
  intros G. unfold cscat, sigma_scat. rewrite !tot_sigma by exact G.
  rewrite (sigma_ext_fun _ _ _ (fun t => (P t + S t) / 2) (fun t => / 2 * (P t + S t))) by (intros; field).
  rewrite sigma_scale, sigma_plus.
  rewrite (sigma_ext_fun _ _ _ (fun t => P t * 1) P) by (intros; ring).
  rewrite (sigma_ext_fun _ _ _ (fun t => S t * 1) S) by (intros; ring). field.
Qed.

Lemma total_angles_in A t : geometry_ok A -> In t (total_angles A) -> 0 <= t <= PI.
Proof.
  intros G Ht. destruct G as (_ & _ & _ & _ & _ & _ & _ & _ & _ & _ & Hs).
  unfold total_angles in Ht. rewrite Rplus_0_l in Ht. apply linspace_in in Ht; lra.
Qed.
Lemma total_angles_asc A : geometry_ok A -> ascending (total_angles A).
Proof.
  intros G. destruct G as (_ & _ & _ & _ & _ & _ & _ & _ & _ & _ & Hs).
  unfold total_angles. apply linspace_ascending. lra.
Qed.
Lemma detected_in A t : geometry_ok A -> In t (detected_angles A) -> PI / 2 <= t <= PI.
Proof.
  intros (H1 & H2 & _ & _ & _ & H3 & H4 & H5 & _) Ht. pose proof PI_RGT_0.
  unfold detected_angles in Ht. apply linspace_in in Ht.
  - pose proof (refracted_range _ _ (a_tmin A) H1 H2 ltac:(lra)).
    pose proof (refracted_range _ _ (a_tmax A) H1 H2 ltac:(lra)). lra.
  - now apply refracted_mono.
Qed.
Lemma detected_asc A : geometry_ok A -> ascending (detected_angles A).
Proof.
  intros (H1 & H2 & _ & _ & _ & H3 & H4 & H5 & _). unfold detected_angles.
  apply linspace_ascending. now apply refracted_mono.
Qed.

Lemma T_range A t : geometry_ok A -> In t (detected_angles A) -> 0 <= Tpar A t <= 1 /\ 0 <= Tperp A t <= 1.
Proof.
  intros G Ht. pose proof (detected_in A t G Ht). destruct G as (H1 & H2 & _).
  destruct (fresnel1_fraction (a_nsample A) (a_nmedium A) (PI - t)) as [F1 F2]; [assumption|assumption|lra|].
  unfold Tpar, Tperp, fraction in *. lra.
Qed.

Lemma fres_range A : geometry_ok A -> fraction (fst (fres A)) /\ fraction (snd (fres A)).
Proof.
  intros (H1 & H2 & _ & _ & _ & _ & _ & _ & _ & Hi & _). unfold fres.
  apply fresnel1_fraction; [assumption|assumption|pose proof PI_RGT_0; lra].
Qed.

Lemma det_nonneg A Q T : geometry_ok A -> (forall t, 0 <= t <= PI -> 0 <= Q t) ->
  (forall t, In t (detected_angles A) -> 0 <= T t) -> 0 <= det_cs A Q T.
Proof.
  intros G HQ HT. rewrite det_sigma by exact G. pose proof PI_RGT_0. apply sigma_nonneg.
  - now apply k_pos.
  - unfold azimuth. destruct G as (_ & _ & _ & _ & _ & _ & _ & _ & Hp & _). lra.
  - now apply detected_asc.
  - intros t Ht. pose proof (detected_in A t G Ht). lra.
  - intros t Ht. pose proof (detected_in A t G Ht). apply Rmult_le_pos; [apply HQ; lra|now apply HT].
Qed.

Lemma scat_nonneg A P S : geometry_ok A -> nonneg_cs P S -> 0 <= sigma_scat A P S.
Proof.
  intros G HN. pose proof PI_RGT_0. unfold sigma_scat. apply sigma_nonneg.
  - now apply k_pos.
  - lra.
  - now apply total_angles_asc.
  - intros t Ht. now apply (total_angles_in A).
  - intros t Ht. destruct (HN t (total_angles_in A t G Ht)). unfold unpol; lra.
Qed.

(** The amplitude of the scattered part in one polarisation. *)
Definition amp (A : refl_args) (P S : R -> R) (r d : R) : R :=
  (1 - r) * d / sigma_ext A P S * (sigma_scat A P S / sigma_ext A P S).

Lemma refl_pol_thick A P S r d L : geometry_ok A -> sigma_ext A P S <> 0 ->
  refl_pol (with_thickness A (Some L)) P S r d
  = Some (r + amp A P S r d * (1 - exp (- (a_rho A * sigma_ext A P S * L)))).
Proof.
  intros G Hx. unfold refl_pol, thick_factor. cbn [a_thickness with_thickness].
  assert (G' : geometry_ok (with_thickness A (Some L))) by exact G.
  assert (Es : cscat (with_thickness A (Some L)) P S = sigma_scat A P S)
    by (rewrite cscat_sigma by exact G'; reflexivity).
  unfold cext. rewrite Es. cbn [a_cabs a_rho with_thickness].
  fold (sigma_ext A P S). unfold ndiv. rewrite (proj2 (Reqb_false _ 0)) by exact Hx. cbn [nbind].
  f_equal. unfold amp.
  replace (- a_rho A * sigma_ext A P S * L) with (- (a_rho A * sigma_ext A P S * L)) by ring.
  field. exact Hx.
Qed.

Lemma refl_pol_infinite A P S r d : geometry_ok A -> sigma_ext A P S <> 0 ->
  refl_pol (with_thickness A None) P S r d = Some (r + (1 - r) * d / sigma_ext A P S).
Proof.
  intros G Hx. unfold refl_pol, thick_factor. cbn [a_thickness with_thickness nbind].
  assert (G' : geometry_ok (with_thickness A None)) by exact G.
  assert (Es : cscat (with_thickness A None) P S = sigma_scat A P S)
    by (rewrite cscat_sigma by exact G'; reflexivity).
  unfold cext. rewrite Es. cbn [a_cabs with_thickness]. fold (sigma_ext A P S).
  unfold ndiv. rewrite (proj2 (Reqb_false _ 0)) by exact Hx. cbn [nbind]. f_equal. lra.
Qed.

Lemma geometry_value A P S : geometry_ok A ->
  reflection_real A (dcs_of P S)
  = Ok (let par := refl_pol A P S (fst (fres A)) (det_cs A P (Tpar A)) in
        let perp := refl_pol A P S (snd (fres A)) (det_cs A S (Tperp A)) in
        let g := nmap (fun a => a / 2) (ndiv (tot_cs A P cos + tot_cs A S cos) (cscat A P S)) in
        mk_rout (nmap2 (fun a b => (a + b) / 2) par perp) par perp g
          (nbind g (fun g => nbind (ndiv 1 (1 - g)) (fun a =>
           nbind (ndiv a (a_rho A)) (fun b => ndiv b (cscat A P S)))))).
Proof.
  intros G. apply reflection_value.
  - apply G.
  - intros t Ht. apply (detected_in A t G Ht).
Qed.

(** Everything about the dependence on the thickness. *)
Lemma thickness_law A P S : geometry_ok A -> nonneg_cs P S -> 0 < sigma_ext A P S ->
  exists cp cs, 0 <= cp /\ 0 <= cs
    /\ (forall L, exists o, reflection_real (with_thickness A (Some L)) (dcs_of P S) = Ok o
          /\ let x := 1 - exp (- (a_rho A * sigma_ext A P S * L)) in
             r_par o = Some (fst (fres A) + cp * x) /\ r_perp o = Some (snd (fres A) + cs * x)
             /\ r_unpol o = Some ((fst (fres A) + snd (fres A)) / 2 + (cp + cs) / 2 * x))
    /\ (exists o, reflection_real (with_thickness A None) (dcs_of P S) = Ok o
          /\ exists dp ds, r_par o = Some (fst (fres A) + dp) /\ r_perp o = Some (snd (fres A) + ds)
             /\ cp * sigma_ext A P S = dp * sigma_scat A P S
             /\ cs * sigma_ext A P S = ds * sigma_scat A P S).
Proof.
  intros G HN Hx.
  assert (Hne : sigma_ext A P S <> 0) by lra.
  pose proof (scat_nonneg A P S G HN) as Hs0.
  destruct (fres_range A G) as [F1 F2]. unfold fraction in F1, F2.
  assert (Dp : 0 <= det_cs A P (Tpar A)).
  { apply det_nonneg; [exact G|intros t Ht; apply (HN t Ht)|intros t Ht; apply (T_range A t G Ht)]. }
  assert (Ds : 0 <= det_cs A S (Tperp A)).
  { apply det_nonneg; [exact G|intros t Ht; apply (HN t Ht)|intros t Ht; apply (T_range A t G Ht)]. }
  assert (Amp : forall r d, 0 <= r <= 1 -> 0 <= d -> 0 <= amp A P S r d).
  { intros r d Hr Hd. unfold amp, Rdiv.
    assert (0 < / sigma_ext A P S) by now apply Rinv_0_lt_compat.
    apply Rmult_le_pos; apply Rmult_le_pos; try lra. apply Rmult_le_pos; lra. }
  exists (amp A P S (fst (fres A)) (det_cs A P (Tpar A))), (amp A P S (snd (fres A)) (det_cs A S (Tperp A))).
  split; [apply Amp; assumption|]. split; [apply Amp; assumption|]. split.
  - intros L. eexists. split; [apply geometry_value; exact G|].
    cbn [r_par r_perp r_unpol].
    change (fres (with_thickness A (Some L))) with (fres A).
    change (det_cs (with_thickness A (Some L))) with (det_cs A).
    change (Tpar (with_thickness A (Some L))) with (Tpar A).
    change (Tperp (with_thickness A (Some L))) with (Tperp A).
    rewrite !refl_pol_thick by assumption. cbn [nmap2].
    split; [reflexivity|]. split; [reflexivity|]. f_equal. field.
  - eexists. split; [apply geometry_value; exact G|].
    cbn [r_par r_perp r_unpol].
    change (fres (with_thickness A None)) with (fres A).
    change (det_cs (with_thickness A None)) with (det_cs A).
    change (Tpar (with_thickness A None)) with (Tpar A).
    change (Tperp (with_thickness A None)) with (Tperp A).
    rewrite !refl_pol_infinite by assumption.
    eexists _, _. split; [reflexivity|]. split; [reflexivity|].
    unfold amp. split; field; exact Hne.
Qed.

(** ** Asymmetry parameter and transport length *)

Lemma sigma_pos_mult k azi g f h : 0 < k -> 0 < azi -> ascending g ->
  (forall t, In t g -> 0 <= t <= PI) -> (forall t, In t g -> 0 <= f t) ->
  (forall t, In t g -> 0 <= h t) -> (forall t, 0 < t < PI -> 0 < h t) ->
  0 < cross_sec k azi g f -> 0 < cross_sec k azi g (fun t => f t * h t).
Proof.
  intros K Az Ha Hr Hf Hh Hp H. unfold cross_sec in *.
  assert (C : 0 < azi / k ^ 2) by (apply Rmult_lt_0_compat; [exact Az|apply Rinv_0_lt_compat, pow_lt, K]).
  assert (H' : 0 < trap_int (fun t => f t * sin t) g).
  { destruct (Rlt_dec 0 (trap_int (fun t => f t * sin t) g)) as [|N]; [assumption|].
    exfalso. apply Rnot_lt_le in N.
    pose proof (Rmult_le_compat_l _ _ _ (Rlt_le _ _ C) N). lra. }
  apply Rmult_lt_0_compat; [exact C|].
  rewrite (trap_int_ext _ (fun t => f t * sin t * h t)) by (intros; ring).
  apply trap_int_pos_mult; try assumption.
  - intros t Ht. apply Rmult_le_pos; [now apply Hf|]. apply sin_ge_0; now apply Hr.
  - intros t Ht Hfs. apply Hp. pose proof (Hr t Ht) as Ht0.
    destruct (Req_dec t 0) as [->|]; [rewrite sin_0 in Hfs; lra|].
    destruct (Req_dec t PI) as [->|]; [rewrite sin_PI in Hfs; lra|]. lra.
Qed.

Lemma cos_open t : 0 < t < PI -> -1 < cos t < 1.
Proof.
  intros H. pose proof (sin_gt_0 t (proj1 H) (proj2 H)). pose proof (sin2_cos2 t). unfold Rsqr in *.
  split; nra.
Qed.

Lemma asymmetry_law A P S : geometry_ok A -> nonneg_cs P S -> 0 < sigma_scat A P S ->
  exists o g l, reflection_real A (dcs_of P S) = Ok o /\ r_asym o = Some g /\ r_lstar o = Some l
    /\ -1 < g < 1 /\ 0 < l
    /\ g * sigma_scat A P S
       = cross_sec (wavenumber A) (2 * PI) (total_angles A) (fun t => unpol P S t * cos t)
    /\ a_rho A * cross_sec (wavenumber A) (2 * PI) (total_angles A) (fun t => unpol P S t * (1 - cos t)) * l = 1.
Proof.
  intros G HN Hs. pose proof (k_pos A G) as K. pose proof PI_RGT_0 as HPI.
  pose proof (total_angles_asc A G) as Ta.
  assert (Tr : forall t, In t (total_angles A) -> 0 <= t <= PI) by (intros t Ht; now apply (total_angles_in A t G)).
  assert (Hf : forall t, In t (total_angles A) -> 0 <= unpol P S t).
  { intros t Ht. destruct (HN t (Tr t Ht)). unfold unpol. lra. }
  set (s := cross_sec (wavenumber A) (2 * PI) (total_angles A)) in *.
  assert (Es : sigma_scat A P S = s (unpol P S)) by reflexivity.
  assert (Hm : 0 < s (fun t => unpol P S t * (1 - cos t))).
  { apply sigma_pos_mult; try assumption; try lra.
    - intros t _. pose proof (COS_bound t). lra.
    - intros t Ht. pose proof (cos_open t Ht). lra. }
  assert (Hp : 0 < s (fun t => unpol P S t * (1 + cos t))).
  { apply sigma_pos_mult; try assumption; try lra.
    - intros t _. pose proof (COS_bound t). lra.
    - intros t Ht. pose proof (cos_open t Ht). lra. }
  assert (Em : s (fun t => unpol P S t * (1 - cos t)) = s (unpol P S) - s (fun t => unpol P S t * cos t)).
  { unfold s. rewrite (sigma_ext_fun _ _ _ _ (fun t => unpol P S t + (-1) * (unpol P S t * cos t))) by (intros; ring).
    rewrite sigma_plus, sigma_scale. ring. }
  assert (Ep : s (fun t => unpol P S t * (1 + cos t)) = s (unpol P S) + s (fun t => unpol P S t * cos t)).
  { unfold s. rewrite (sigma_ext_fun _ _ _ _ (fun t => unpol P S t + (unpol P S t * cos t))) by (intros; ring).
    now rewrite sigma_plus. }
  assert (Ec : tot_cs A P cos + tot_cs A S cos = 2 * s (fun t => unpol P S t * cos t)).
  { rewrite !tot_sigma by exact G. fold s.
    replace (2 * s (fun t => unpol P S t * cos t)) with (s (fun t => 2 * (unpol P S t * cos t)))
      by (unfold s; apply sigma_scale).
    unfold s. rewrite <- sigma_plus. apply sigma_ext_fun.
    intros t _. unfold unpol. field. }
  rewrite Es in *. set (sc := s (unpol P S)) in *. set (cc := s (fun t => unpol P S t * cos t)) in *.
  set (g := 2 * cc / sc / 2).
  assert (Eg : g * sc = cc) by (unfold g; field; lra).
  assert (Hg : -1 < g < 1).
  { split; apply (Rmult_lt_reg_r sc); try exact Hs; rewrite Eg; lra. }
  exists (let par := refl_pol A P S (fst (fres A)) (det_cs A P (Tpar A)) in
          let perp := refl_pol A P S (snd (fres A)) (det_cs A S (Tperp A)) in
          mk_rout (nmap2 (fun a b => (a + b) / 2) par perp) par perp (Some g)
            (Some (1 / (1 - g) / a_rho A / sc))), g, (1 / (1 - g) / a_rho A / sc).
  assert (Hrho : 0 < a_rho A) by apply G.
  split.
  { rewrite geometry_value by exact G. rewrite Ec, cscat_sigma by exact G. rewrite Es. fold sc.
    unfold ndiv. rewrite (proj2 (Reqb_false sc 0)) by lra. cbn [nmap option_map nbind].
    fold g. rewrite (proj2 (Reqb_false (1 - g) 0)) by lra. cbn [nbind].
    rewrite (proj2 (Reqb_false (a_rho A) 0)) by lra. cbn [nbind]. reflexivity. }
  split; [reflexivity|]. split; [reflexivity|]. split; [exact Hg|]. split.
  { unfold Rdiv. repeat apply Rmult_lt_0_compat; try lra; apply Rinv_0_lt_compat; lra. }
  split; [exact Eg|].
  rewrite Em. rewrite <- Eg. field. lra.
Qed.
