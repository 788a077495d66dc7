(** C169: the single-scattering model and the Monte Carlo model agree on thin films. *)
From Coq Require Import Lra Lia Psatz Reals List.
From Verif Require Import Num Spec Spec_scatter Spec_reflection Spec_scat Spec_mean Spec_direct Spec_single Spec_diffuse Spec_thin Spec_agree
  M_init M_montecarlo M_model M_reflection M_detector M_simulation M_structure M_refractive_index M_scat
  L_num L_trapezoid L_reflection L_reflection2 L_reflection3 L_reflection4 L_scat L_sampling L_draws L_weights L_thick L_single L_diffuse L_thin L_agree L_slots L_montecarlo2 L_direct L_dcs
  Properties_single Properties_diffuse Properties_thin Properties_scat.
From Coquelicot Require Import Coquelicot.
Import ListNotations.
Open Scope R_scope.
Local Notation with_d := Spec_thin.with_thickness.
Local Notation avg := Spec_diffuse.average.

Ltac rring := match goal with |- @eq _ ?l ?r => change (@eq R l r) end; ring.

(** ** The table of the phase function *)
Section Table.
Variables (F : R -> R) (lo : R) (N : nat) (c : R).
Hypothesis (Hc : c <> 0).
Let g := linspace lo PI N.
Let p := map (fun t => F t / c) g.
Lemma table_length : length p = N.
Proof. unfold p, g, linspace. now rewrite !map_length, seq_length. Qed.
Lemma table_nth i : (i < N)%nat -> nth i p 0 = F (grid lo PI N i) / c.
Proof.
  intros Hi. unfold p, g. rewrite linspace_grid, map_map.
  rewrite (nth_indep _ 0 ((fun x => F (grid lo PI N x) / c) 0%nat)) by (now rewrite map_length, seq_length).
  rewrite (map_nth (fun x => F (grid lo PI N x) / c)), seq_nth by exact Hi. reflexivity.
Qed.
Lemma table_weights (h : R -> R) :
  total (map (fun i => angle_weight p lo i * h (grid lo PI (length p) i)) (seq 0 (length p))) = total (map (fun t => F t * sin t * h t) g) / c.
Proof.
  rewrite table_length. unfold g. rewrite linspace_grid, map_map.
  assert (E : forall l, (forall i, In i l -> (i < N)%nat) ->
    total (map (fun i => angle_weight p lo i * h (grid lo PI N i)) l) = total (map (fun x => F (grid lo PI N x) * sin (grid lo PI N x) * h (grid lo PI N x)) l) / c).
  { induction l as [|i l IH]; intros H; cbn [map total]; [field; exact Hc|]. rewrite IH by (intros; apply H; now right).
    unfold angle_weight. rewrite table_length, table_nth by (apply H; now left). field. exact Hc. }
  apply E. intros i Hi. apply in_seq in Hi. lia.
Qed.
Lemma table_sum : total (map (angle_weight p lo) (seq 0 (length p))) = total (map (fun t => F t * sin t) g) / c.
Proof.
  transitivity (total (map (fun i => angle_weight p lo i * 1) (seq 0 (length p)))); [f_equal; apply map_ext; intros; ring|].
  rewrite (table_weights (fun _ => 1)). f_equal. f_equal. apply map_ext. intros; ring.
Qed.
Lemma table_average h : total (map (fun t => F t * sin t) g) <> 0 ->
  avg p lo h = total (map (fun t => F t * sin t * h t) g) / total (map (fun t => F t * sin t) g).
Proof.
  intros Ht. unfold Spec_diffuse.average, share. rewrite table_sum.
  transitivity (total (map (fun i => angle_weight p lo i * h (grid lo PI (length p) i)) (seq 0 (length p))) * / (total (map (fun t => F t * sin t) g) / c)).
  - generalize (seq 0 (length p)). intros l. induction l as [|i l IH]; cbn [map total]; [ring|]. rewrite IH. field. split; [exact Hc|exact Ht].
  - rewrite table_weights. field. split; [exact Ht|exact Hc].
Qed.
End Table.

Lemma total_le (f h : R -> R) l : (forall t, In t l -> f t <= h t) -> total (map f l) <= total (map h l).
Proof.
  induction l as [|a l IH]; intros H; cbn [map total]; [lra|]. pose proof (H a (or_introl eq_refl)). pose proof (IH (fun t Ht => H t (or_intror Ht))). lra.
Qed.
Lemma phase_table P S g : 0 < total (map (fun t => P t + S t) g) ->
  phase_function_p (map P g) (map S g) = map Some (map (fun t => unpol P S t / (total (map (fun t => P t + S t) g) / 2)) g).
Proof.
  intros Ht. unfold phase_function_p, normalise. rewrite L_slots.map2_maps.
  assert (E : Rsum (map (fun t => P t + S t) g) = total (map (fun t => P t + S t) g)) by reflexivity.
  rewrite E, (proj2 (Reqb_false _ 0)) by lra. rewrite !map_map. apply map_ext. intros t. unfold unpol. f_equal. field. lra.
Qed.

(** ** The single-scattering model of a matched film *)
Section Matched.
Variables (n w rho lo : R) (P S : R -> R).
Hypothesis (Hn : 0 < n) (Hw : 0 < w) (Hr : 0 < rho) (Hlo : 0 <= lo <= PI / 2).
Hypothesis HPS : forall t, 0 <= t <= PI -> 0 <= P t /\ 0 <= S t.
Let k := 2 * PI * n / w.
Let U := unpol P S.
Lemma k_positive : 0 < k.
Proof. pose proof PI_RGT_0. unfold k. apply Rmult_lt_0_compat; [nra|now apply Rinv_0_lt_compat]. Qed.
Lemma matched_geometry d N : geometry_ok (matched_args n w rho lo d N).
Proof.
  pose proof PI_RGT_0. unfold geometry_ok, matched_args. cbn [a_nmedium a_nsample a_wavelen a_rho a_cabs a_tmin a_tmax a_pmin a_pmax a_inc a_small]. repeat split; lra.
Qed.
Lemma refracted_same t : PI / 2 <= t <= PI -> refracted_theta n n t = t.
Proof.
  intros Ht. rewrite <- (refracted_matched t Ht) at 2. unfold refracted_theta. rewrite Rabs_R1, (Rabs_pos_eq n) by lra.
  replace (sin (PI - t) * n / n) with (sin (PI - t) * 1 / 1) by (field; lra). reflexivity.
Qed.
Lemma matched_detected d N : detected_angles (matched_args n w rho lo d N) = linspace (PI / 2) PI N.
Proof.
  pose proof PI_RGT_0. unfold detected_angles, matched_args. cbn [a_nmedium a_nsample a_tmin a_tmax a_num].
  rewrite !refracted_same by lra. reflexivity.
Qed.
Lemma matched_total d N : total_angles (matched_args n w rho lo d N) = linspace lo PI N.
Proof. unfold total_angles, matched_args. cbn [a_small a_num]. now rewrite Rplus_0_l. Qed.
Definition shown (t : R) : R := if Rltb (PI / 2) t then 1 else 0.
Lemma matched_T d N t : PI / 2 <= t <= PI ->
  Tpar (matched_args n w rho lo d N) t = shown t /\ Tperp (matched_args n w rho lo d N) t = shown t.
Proof.
  intros Ht. unfold Tpar, Tperp, matched_args, shown. cbn [a_nmedium a_nsample]. destruct (Rltb (PI / 2) t) eqn:E.
  - apply Rltb_true in E. rewrite refl1_matched by lra. cbn [fst snd]. lra.
  - apply Rltb_false in E. replace (PI - t) with (PI / 2) by lra. rewrite refl1_grazing by exact Hn. cbn [fst snd]. lra.
Qed.
Let sg N := cross_sec k (2 * PI) (linspace lo PI N) U.
Let dt N := 2 * PI / k ^ 2 * trap_int (fun t => U t * sin t * shown t) (linspace (PI / 2) PI N).
Lemma matched_value d N : 0 < sg N ->
  exists o, reflection_real (matched_args n w rho lo d N) (dcs_of P S) = Ok o
    /\ r_unpol o = Some (dt N / sg N * (1 - exp (- (rho * sg N * d)))).
Proof.
  intros Hs. set (A := matched_args n w rho lo d N). pose proof (matched_geometry d N) as G. fold A in G. pose proof k_positive as Hk. pose proof PI_RGT_0 as HPI.
  assert (ES : sigma_scat A P S = sg N) by (unfold sigma_scat, A; rewrite matched_total; reflexivity).
  assert (EE : sigma_ext A P S = sg N) by (unfold sigma_ext; rewrite ES; unfold A, matched_args; cbn [a_cabs]; ring).
  eexists. split; [apply geometry_value; exact G|]. cbn [r_unpol].
  change A with (Spec_reflection.with_thickness A (Some d)). rewrite !refl_pol_thick by (exact G || (rewrite EE; lra)). cbn [nmap2]. f_equal.
  change (Spec_reflection.with_thickness A (Some d)) with A.
  assert (Ef : fres A = (0, 0)) by (unfold fres, A, matched_args; cbn [a_nmedium a_nsample a_inc]; apply refl1_matched; lra).
  rewrite Ef. cbn [fst snd]. unfold amp. rewrite ES, EE.
  assert (ED : det_cs A P (Tpar A) + det_cs A S (Tperp A) = 2 * dt N).
  { rewrite !det_sigma by exact G. assert (EA : detected_angles A = linspace (PI / 2) PI N) by apply matched_detected. assert (Ek : wavenumber A = k) by reflexivity.
    assert (Ez : azimuth A = 2 * PI) by (unfold azimuth, A, matched_args; cbn [a_pmin a_pmax]; ring). rewrite EA, Ek, Ez. unfold cross_sec.
    rewrite <- Rmult_plus_distr_l, <- trap_int_plus. unfold dt. rewrite (trap_int_ext _ (fun t => 2 * (U t * sin t * shown t))).
    - rewrite trap_int_scale. match goal with |- @eq _ ?l ?r => change (@eq R l r) end. ring.
    - intros t Ht. apply L_montecarlo2.linspace_in in Ht; [|lra]. pose proof (matched_T d N t Ht) as [T1 T2]. fold A in T1, T2. rewrite T1, T2. unfold U, unpol. field. }
  change (a_rho A) with rho. replace (det_cs A S (Tperp A)) with (2 * dt N - det_cs A P (Tpar A)) by lra. field. lra.
Qed.
End Matched.

(** ** Limits *)
Lemma to_lim u (v : R) : (forall eps, 0 < eps -> exists N, forall n, (N <= n)%nat -> Rabs (u n - v) < eps) -> is_lim_seq u v.
Proof. intros H. apply is_lim_seq_spec. intros eps. destruct (H eps (cond_pos eps)) as [N HN]. exists N. exact HN. Qed.
Lemma of_lim u (v : R) : is_lim_seq u v -> forall eps, 0 < eps -> exists N, forall n, (N <= n)%nat -> Rabs (u n - v) < eps.
Proof. intros H eps He. apply is_lim_seq_spec in H. destruct (H (mkposreal eps He)) as [N HN]. exists N. exact HN. Qed.
Lemma one_minus_exp x : 0 <= x -> x - x ^ 2 <= 1 - exp (- x) <= x.
Proof.
  intros Hx. pose proof (exp_ineq1_le (- x)) as E1. pose proof (exp_ineq1_le x) as E2. split; [|lra].
  assert (E3 : exp (- x) * exp x = 1) by (rewrite <- exp_plus; replace (- x + x) with 0 by ring; apply exp_0).
  pose proof (exp_pos (- x)) as E4. assert (exp (- x) * (1 + x) <= 1) by nra. nra.
Qed.

Section Agree.
Variables (n w rho lo : R) (P S : R -> R) (whole back : R).
Hypothesis (Hn : 0 < n) (Hw : 0 < w) (Hr : 0 < rho) (Hlo : 0 <= lo <= PI / 2).
Hypothesis HPS : forall t, lo <= t <= PI -> 0 <= P t /\ 0 <= S t.
Let U := unpol P S.
Let f1 (t : R) := U t * sin t.
Let f2 (t : R) := U t * sin t * (if Rltb (cos t) 0 then 1 else 0).
Let f3 (t : R) := U t * sin t * shown t.
Hypothesis (HI : is_RInt f1 lo PI whole) (HB : is_RInt f1 (PI / 2) PI back) (Hpos : 0 < whole).
Let k := 2 * PI * n / w.
Let c2 := 2 * PI / k ^ 2.
Lemma f3_int : is_RInt f3 (PI / 2) PI back.
Proof.
  pose proof PI_RGT_0. refine (is_RInt_ext f1 f3 _ _ _ _ HB). intros x Hx. rewrite Rmin_left, Rmax_right in Hx by lra. unfold f1, f3, shown.
  rewrite (proj2 (Rltb_true _ _)) by lra. rring.
Qed.
Lemma f2_int : is_RInt f2 lo PI back.
Proof.
  pose proof PI_RGT_0. refine (eq_ind _ (fun v => is_RInt f2 lo PI v) (is_RInt_Chasles f2 lo (PI / 2) PI 0 back _ _) _ _).
  - refine (is_RInt_ext (fun _ : R => 0) f2 _ _ _ _ _).
    + intros x Hx. rewrite Rmin_left, Rmax_right in Hx by lra. unfold f2. rewrite (proj2 (Rltb_false _ _)) by (apply cos_ge_0; lra). rring.
    + refine (eq_ind _ (fun v => is_RInt (fun _ : R => 0) lo (PI / 2) v) (is_RInt_const lo (PI / 2) 0) _ _). unfold scal. cbn. unfold mult. cbn. ring.
  - refine (is_RInt_ext f1 f2 _ _ _ _ HB). intros x Hx. rewrite Rmin_left, Rmax_right in Hx by lra. unfold f1, f2.
    rewrite (proj2 (Rltb_true _ _)) by (apply cos_lt_0; lra). rring.
  - unfold plus. cbn. ring.
Qed.
Let X N := rho * (c2 * trap_int f1 (linspace lo PI N)) * (lsum f2 (linspace lo PI N) / lsum f1 (linspace lo PI N)).
Let Y N := rho * (c2 * trap_int f3 (linspace (PI / 2) PI N)).
Let L := rho * (c2 * back).
Lemma limits : is_lim_seq (fun N => trap_int f1 (linspace lo PI N)) whole /\ is_lim_seq (fun N => lsum f1 (linspace lo PI N)) whole
  /\ is_lim_seq X L /\ is_lim_seq Y L.
Proof.
  pose proof PI_RGT_0. assert (A1 : lo < PI) by lra. assert (A2 : PI / 2 < PI) by lra.
  assert (B1 : is_lim_seq (fun N => trap_int f1 (linspace lo PI N)) whole) by (apply to_lim; exact (trap_lim f1 lo PI whole A1 HI)).
  assert (B2 : is_lim_seq (fun N => lsum f1 (linspace lo PI N)) whole) by (apply to_lim; exact (lsum_lim f1 lo PI whole A1 HI)).
  assert (B3 : is_lim_seq (fun N => lsum f2 (linspace lo PI N)) back) by (apply to_lim; exact (lsum_lim f2 lo PI back A1 f2_int)).
  assert (B4 : is_lim_seq (fun N => trap_int f3 (linspace (PI / 2) PI N)) back) by (apply to_lim; exact (trap_lim f3 (PI / 2) PI back A2 f3_int)).
  split; [exact B1|]. split; [exact B2|]. split.
  - replace L with (rho * (c2 * whole) * (back / whole)) by (unfold L; field; lra). apply is_lim_seq_mult'.
    + apply is_lim_seq_mult'; [apply is_lim_seq_const|]. apply is_lim_seq_mult'; [apply is_lim_seq_const|exact B1].
    + apply is_lim_seq_div'; [exact B3|exact B2|lra].
  - unfold Y, L. apply is_lim_seq_mult'; [apply is_lim_seq_const|]. apply is_lim_seq_mult'; [apply is_lim_seq_const|exact B4].
Qed.
Lemma fine_enough eps : 0 < eps -> exists N0, forall N, (N0 <= N)%nat -> (1 < N)%nat /\ 0 < trap_int f1 (linspace lo PI N) /\ 0 < lsum f1 (linspace lo PI N)
  /\ Rabs (X N - L) < eps /\ Rabs (Y N - L) < eps.
Proof.
  intros He. destruct limits as (B1 & B2 & B3 & B4). destruct (of_lim _ _ B1 whole Hpos) as [N1 H1]. destruct (of_lim _ _ B2 whole Hpos) as [N2 H2].
  destruct (of_lim _ _ B3 eps He) as [N3 H3]. destruct (of_lim _ _ B4 eps He) as [N4 H4]. exists (2 + N1 + N2 + N3 + N4)%nat. intros N HN.
  split; [lia|]. specialize (H1 N ltac:(lia)). specialize (H2 N ltac:(lia)). apply Rabs_def2 in H1, H2. split; [lra|]. split; [lra|].
  split; [apply H3; lia|apply H4; lia].
Qed.
End Agree.
Lemma matched_pass M n : p_nmedium M = n -> p_nsample M = n -> p_nfront M = None -> p_nback M = None -> 0 < n ->
  let pass := fun th => if Rltb (cos th) 0 then pf1 n None n (PI - th) else pf1 n None n th in
  (forall th, 0 <= th <= PI -> let_out M th (pass th))
  /\ (forall th, 0 <= th <= PI -> cos th < 0 -> pass th = / (1 + EPS))
  /\ through (p_nmedium M) (p_nfront M) (p_nsample M) = / (1 + EPS).
Proof.
  intros E1 E2 E3 E4 Hn pass. pose proof PI_RGT_0 as HP. split; [|split].
  - intros th Hth. unfold let_out, pass. rewrite E1, E2, E3, E4. destruct (Rltb (cos th) 0) eqn:E.
    + apply Rltb_true in E. assert (PI / 2 < th) by (destruct (Rle_lt_dec th (PI / 2)) as [L|L]; [pose proof (cos_ge_0 th ltac:(lra) L); lra|exact L]).
      rewrite pass_frac_ok; [reflexivity|]. constructor; [lra|constructor].
    + apply Rltb_false in E. assert (th <= PI / 2) by (destruct (Rle_lt_dec th (PI / 2)) as [L|L]; [exact L|pose proof (cos_lt_0 th L ltac:(lra)); lra]).
      rewrite pass_frac_ok; [reflexivity|]. constructor; [lra|constructor].
  - intros th Hth Hc. unfold pass. rewrite (proj2 (Rltb_true _ _) Hc).
    assert (PI / 2 < th) by (destruct (Rle_lt_dec th (PI / 2)) as [L|L]; [pose proof (cos_ge_0 th ltac:(lra) L); lra|exact L]).
    rewrite pf1_matched by lra. unfold L_thick.cc. unfold Rdiv. ring.
  - rewrite E1, E2, E3, <- L_direct.pf1_normal by (assumption || discriminate). rewrite pf1_matched by lra. unfold L_thick.cc. unfold Rdiv. ring.
Qed.

(** C169.  Identical particles (number density rho, unpolarised differential cross
    section (P + S)/(2 k^2)) in a film of the index of its surroundings, without
    absorption.  Monte Carlo: phase function and cross section from
    phase_function on N angles, scattering coefficient rho times the cross
    section.  Single scattering: reflectance from the same cross sections and
    angles.  With enough angles and a thin enough film, the mean reflectance of
    once-scattered light of the first and the reflectance of the second, each per
    thickness, are both as close as you like to the textbook's rho times the
    cross section for scattering backwards.  The Monte Carlo result has the
    factor 1/(1 + 1e-9) of fresnel_pass_frac once per surface. *)
Theorem C169_same_limit : forall n wavelen rho lo dcs P S (whole back : R) nevents ntraj spot pmin pmax M D,
  0 < n -> 0 < wavelen -> 0 < rho -> 0 <= lo <= PI / 2 ->
  (forall t, lo <= t <= PI -> dcs t = Ok (Some (P t), Some (S t)) /\ 0 <= P t /\ 0 <= S t) ->
  is_RInt (fun t => unpol P S t * sin t) lo PI whole -> is_RInt (fun t => unpol P S t * sin t) (PI / 2) PI back -> 0 < whole ->
  plain_film M -> p_nmedium M = n -> p_nsample M = n -> p_nfront M = None -> p_nback M = None -> p_muabs M = 0 ->
  (1 < nevents)%nat -> (0 < ntraj)%nat -> (forall m i, 0 <= d_u D m i < 1) ->
  let limit := rho * partial_section n wavelen back in
  forall eps, 0 < eps -> exists N0, forall N, (N0 <= N)%nat ->
    exists p sigma, phase_function dcs (2 * PI * n / wavelen) (linspace lo PI N) = Ok (map Some p, Some sigma) /\
    exists d0, 0 < d0 /\ forall d, 0 < d < d0 ->
      exists r o u,
        is_mean (ntraj * 3) (fun t => once_reflected (film_run nevents ntraj spot 0 0 pmin pmax (rho * sigma) (with_d d M) (with_first_scattering p lo t D))) r
        /\ reflection_real (matched_args n wavelen rho lo d N) dcs = Ok o /\ r_unpol o = Some u
        /\ Rabs (r / d * (1 + EPS) ^ 2 - limit) < eps /\ Rabs (u / d - limit) < eps.
Proof.
  intros n w rho lo dcs P S whole back nev ntraj spot pmin pmax M D Hn Hw Hr Hlo HD HI HB Hpos HM E1 E2 E3 E4 E5 Hnev Hnt Hu limit eps He.
  pose proof PI_RGT_0 as HPI. assert (Hlo' : 0 <= lo <= PI) by lra.
  assert (HPS : forall t, lo <= t <= PI -> 0 <= P t /\ 0 <= S t) by (intros t Ht; exact (proj2 (HD t Ht))).
  pose proof (k_positive n w Hn Hw) as Hk. set (k := 2 * PI * n / w) in *. set (U := unpol P S) in *. set (c2 := 2 * PI / k ^ 2).
  assert (Hc2 : 0 < c2) by (unfold c2; apply Rmult_lt_0_compat; [lra|apply Rinv_0_lt_compat, pow_lt, Hk]).
  assert (EP0 : 0 < EPS) by (unfold EPS; apply Rinv_0_lt_compat, pow_lt; lra).
  destruct (fine_enough n w rho lo P S whole back Hlo HI HB Hpos (eps / 2) ltac:(lra)) as [N0 H0]. exists N0. intros N HN.
  destruct (H0 N HN) as (HN1 & HT & HL & HX & HY). clear H0. fold k in HX, HY. fold U in HT, HL, HX, HY. fold c2 in HX, HY.
  set (g := linspace lo PI N) in *. set (f1 := fun t => U t * sin t) in *. set (f2 := fun t => U t * sin t * (if Rltb (cos t) 0 then 1 else 0)) in *.
  assert (Gin : forall t, In t g -> lo <= t <= PI) by (intros t Ht; apply L_montecarlo2.linspace_in in Ht; lra).
  set (h := (PI - lo) / INR (N - 1)). assert (Hh : 0 < h) by (unfold h; apply Rmult_lt_0_compat; [lra|apply Rinv_0_lt_compat, lt_0_INR; lia]).
  assert (L1 : lsum f1 g = h * total (map f1 g)) by (unfold g, h; apply lsum_total; [unfold f1; rewrite sin_PI; ring|exact HN1]).
  assert (L2 : lsum f2 g = h * total (map f2 g)) by (unfold g, h; apply lsum_total; [unfold f2; rewrite sin_PI; ring|exact HN1]).
  assert (T1 : 0 < total (map f1 g)) by (rewrite L1 in HL; destruct (Rlt_le_dec 0 (total (map f1 g))) as [Q|Q]; [exact Q|nra]).
  set (tot := total (map (fun t => P t + S t) g)).
  assert (Htot : 0 < tot).
  { apply Rlt_le_trans with (1 := T1). apply total_le. intros t Ht. pose proof (Gin t Ht) as Gt. destruct (HPS t Gt) as [Q1 Q2]. pose proof (SIN_bound t). pose proof (sin_ge_0 t ltac:(lra) ltac:(lra)). unfold f1, U, unpol. nra. }
  set (c := tot / 2). assert (Hc : c <> 0) by (unfold c; apply Rgt_not_eq; lra).
  set (p := map (fun t => U t / c) g). set (sigma := c2 * trap_int f1 g). exists p, sigma. split.
  { rewrite (phase_value dcs P S) by (exact Hk || intros t Ht; apply (HD t (Gin t Ht))). rewrite (phase_table P S g Htot). reflexivity. }
  assert (Hsig : 0 < sigma) by (unfold sigma; now apply Rmult_lt_0_compat). set (mu := rho * sigma). assert (Hmu : 0 < mu) by (unfold mu; now apply Rmult_lt_0_compat).
  assert (Hp : List.Forall (fun x => 0 <= x) p).
  { apply Forall_forall. intros x Hx. apply in_map_iff in Hx as (t & <- & Ht). destruct (HPS t (Gin t Ht)) as [Q1 Q2]. unfold U, unpol, c.
    apply Rmult_le_pos; [lra|left; apply Rinv_0_lt_compat; lra]. }
  assert (Hw0 : 0 < total (map (angle_weight p lo) (seq 0 (length p)))).
  { unfold p, g. rewrite (table_sum U lo N c Hc). apply Rmult_lt_0_compat; [exact T1|apply Rinv_0_lt_compat; unfold c; lra]. }
  destruct (matched_pass M n E1 E2 E3 E4 Hn) as (Q1 & Q2 & Q3). set (pass := fun th : R => if Rltb (cos th) 0 then pf1 n None n (PI - th) else pf1 n None n th) in *.
  assert (Eavg : avg p lo (fun th => if Rltb (cos th) 0 then pass th else 0) = total (map f2 g) / total (map f1 g) * / (1 + EPS)).
  { rewrite (Properties_thin.avg_ext p lo Hlo' Hp Hw0 _ (fun th => / (1 + EPS) * (if Rltb (cos th) 0 then 1 else 0))).
    - rewrite avg_scal. unfold p, g. rewrite (table_average U lo N c Hc) by (apply Rgt_not_eq; exact T1). fold g. fold f1. fold f2. field. lra.
    - intros th Hth. destruct (Rltb (cos th) 0) eqn:E; [|ring]. apply Rltb_true in E. pose proof (Q2 th Hth E) as Q2'. cbv beta in Q2'. change (pass th = / (1 + EPS)) in Q2'. rewrite Q2'. ring. }
  destruct (C162_thin_film p lo nev ntraj spot pmin pmax mu M D pass Hlo' Hp Hw0 HM Hnev Hnt Hmu Hu E5 Q1) as [_ Thin].
  rewrite Q3, Eavg in Thin.
  assert (S0 : 0 < (1 + EPS) ^ 2) by (apply pow_lt; lra).
  destruct (Thin (eps / 2 / (1 + EPS) ^ 2)) as (d1 & Hd1 & Thin1); [apply Rdiv_lt_0_compat; lra|]. clear Thin.
  set (dt := c2 * trap_int (fun t => U t * sin t * shown t) (linspace (PI / 2) PI N)) in *.
  set (Z := rho * Rabs dt * mu + 1). assert (HZ : 0 < Z) by (unfold Z; pose proof (Rabs_pos dt); assert (0 <= rho * Rabs dt * mu) by (apply Rmult_le_pos; [apply Rmult_le_pos|]; lra); lra).
  exists (Rmin d1 (eps / 2 / Z)). split; [apply Rmin_pos; [exact Hd1|apply Rdiv_lt_0_compat; lra]|]. intros d [Hd Hd'].
  pose proof (Rmin_l d1 (eps / 2 / Z)) as M1. pose proof (Rmin_r d1 (eps / 2 / Z)) as M2.
  destruct (Thin1 d ltac:(lra)) as (r & tt & R1 & _ & R2 & _).
  destruct (matched_value n w rho lo P S Hn Hw Hr Hlo d N ltac:(exact Hsig)) as (o & O1 & O2).
  exists r, o, (dt / sigma * (1 - exp (- (mu * d)))). split; [exact R1|]. split.
  { rewrite <- O1. apply real_ext. intros t [Ht|Ht].
    - rewrite matched_detected in Ht by assumption. apply L_montecarlo2.linspace_in in Ht; [|lra]. apply (HD t); lra.
    - rewrite matched_total in Ht. apply L_montecarlo2.linspace_in in Ht; [|lra]. apply (HD t); lra. }
  split; [rewrite O2; reflexivity|].
  assert (EL : limit = rho * (c2 * back)) by reflexivity. rewrite EL.
  split.
  - replace (lsum f2 g / lsum f1 g) with (total (map f2 g) / total (map f1 g)) in HX by (rewrite L1, L2; field; split; lra).
    change (rho * (c2 * trap_int f1 g)) with mu in HX. set (q := total (map f2 g) / total (map f1 g)) in *.
    replace (r / d * (1 + EPS) ^ 2 - rho * (c2 * back)) with ((r / d - mu * / (1 + EPS) * (q * / (1 + EPS))) * (1 + EPS) ^ 2 + (mu * q - rho * (c2 * back))) by (field; lra).
    apply (Rle_lt_trans _ _ _ (Rabs_triang _ _)). rewrite Rabs_mult, (Rabs_pos_eq ((1 + EPS) ^ 2)) by lra.
    apply (Rmult_lt_compat_r _ _ _ S0) in R2. replace (eps / 2 / (1 + EPS) ^ 2 * (1 + EPS) ^ 2) with (eps / 2) in R2 by (field; lra). lra.
  - replace (dt / sigma * (1 - exp (- (mu * d))) / d - rho * (c2 * back)) with (rho * dt * ((1 - exp (- (mu * d)) - mu * d) / (mu * d)) + (rho * dt - rho * (c2 * back))) by (unfold mu; field; repeat split; lra).
    apply (Rle_lt_trans _ _ _ (Rabs_triang _ _)).
    assert (Hx : 0 < mu * d) by (now apply Rmult_lt_0_compat). pose proof (one_minus_exp (mu * d) ltac:(lra)) as [X1 X2].
    assert (B : Rabs ((1 - exp (- (mu * d)) - mu * d) / (mu * d)) <= mu * d).
    { apply Rabs_le. split; apply (Rmult_le_reg_r (mu * d)); try exact Hx; unfold Rdiv; rewrite Rmult_assoc, Rinv_l, Rmult_1_r by lra; nra. }
    rewrite Rabs_mult, Rabs_mult, (Rabs_pos_eq rho) by lra. pose proof (Rabs_pos dt) as D0.
    assert (B2 : rho * Rabs dt * Rabs ((1 - exp (- (mu * d)) - mu * d) / (mu * d)) <= rho * Rabs dt * (mu * d)) by (apply Rmult_le_compat_l; [apply Rmult_le_pos; lra|exact B]).
    assert (B3 : d * Z < eps / 2). { assert (Q : d < eps / 2 / Z) by lra. apply (Rmult_lt_compat_r _ _ _ HZ) in Q. unfold Rdiv in Q at 1. rewrite Rmult_assoc, Rinv_l, Rmult_1_r in Q by lra. exact Q. }
    unfold Z in B3. assert (B4 : rho * Rabs dt * (mu * d) <= d * (rho * Rabs dt * mu + 1)) by nra.
    assert (HY' : Rabs (rho * dt - rho * (c2 * back)) < eps / 2) by exact HY. lra.
Qed.
Print Assumptions C169_same_limit.

(** The same for the functions users call: [reflection] and [calc_scat] with the
    same description of the sample ([Spec_scat.same_sample], C37), a
    non-absorbing film in a medium of its own index [n].  Both tend to the
    number density vf/(mean volume) times the cross section for scattering
    backwards. *)
Theorem C169_sample : forall fsolve factorial ang cabs absorbing special I J n ne x_eff P S (whole back : R) nevents ntraj spot pmin pmax M D,
  inputs_ok factorial I n ne -> sample_is fsolve I n ne -> (forall N d, same_sample fsolve (film_args I N d) (angles_args J N)) ->
  (forall m y t, 0 <= fst (ang m y t) /\ 0 <= snd (ang m y t)) -> (forall m y, cabs m y = 0) ->
  i_nmedium I = n -> s_min J <= PI / 2 -> scat_medium J = Ok (RtoC n, x_eff) ->
  (forall t, s_min J <= t <= PI -> scat_dcs factorial ang J (form_used J) (structure_used J) n x_eff t = Ok (Some (P t), Some (S t))) ->
  is_RInt (fun t => unpol P S t * sin t) (s_min J) PI whole -> is_RInt (fun t => unpol P S t * sin t) (PI / 2) PI back -> 0 < whole ->
  plain_film M -> p_nmedium M = n -> p_nsample M = n -> p_nfront M = None -> p_nback M = None -> p_muabs M = 0 ->
  (1 < nevents)%nat -> (0 < ntraj)%nat -> (forall m i, 0 <= d_u D m i < 1) ->
  let limit := s_vf J / mean_volume J * partial_section n (s_wavelen J) back in
  forall eps, 0 < eps -> exists N0, forall N, (N0 <= N)%nat ->
    exists p mu, calc_scat factorial ang special (angles_args J N) = Ok (mk_sout (map Some p) (Some mu) None 0) /\
    exists d0, 0 < d0 /\ forall d, 0 < d < d0 ->
      exists r o u,
        is_mean (ntraj * 3) (fun t => once_reflected (film_run nevents ntraj spot 0 0 pmin pmax mu (with_d d M) (with_first_scattering p (s_min J) t D))) r
        /\ reflection fsolve factorial ang cabs absorbing (film_args I N d) = Ok o /\ r_unpol o = Some u
        /\ Rabs (r / d * (1 + EPS) ^ 2 - limit) < eps /\ Rabs (u / d - limit) < eps.
Proof.
  intros fsolve factorial ang cabs absorbing special I J n ne x_eff P S whole back nev ntraj spot pmin pmax M D HI Hs Hss Ha Hc Em Hmin Emed HD HW HB Hpos HM E1 E2 E3 E4 E5 Hnev Hnt Hu limit eps He.
  assert (HIN : forall N d, 0 < d -> inputs_ok factorial (film_args I N d) n ne).
  { intros N d Hd. destruct HI as (H1 & H2 & H3 & H4 & H5 & H6 & H7 & H8 & H9 & H10 & H11 & H12 & H13 & H14 & H15 & H16 & H17 & H18 & H19).
    pose proof PI_RGT_0. unfold inputs_ok. cbn [film_args i_nparticle i_radius i_radius2 i_conc i_nmedium i_wavelen i_vf i_thickness i_tmin i_tmax i_pmin i_pmax i_inc i_small i_form i_structure i_sdata].
    split; [exact H1|]. split; [exact H2|]. split; [exact H3|]. split; [exact H4|]. split; [exact H5|]. split; [exact H6|]. split; [exact H7|].
    split; [exact H8|]. split; [exact H9|]. split; [exact H10|]. split; [intros L Q; injection Q as <-; lra|].
    do 4 (split; [lra|]). split; [lra|]. split; [exact H17|]. split; [exact H18|exact H19]. }
  pose proof (same_ok fsolve factorial (film_args I 0 1) (angles_args J 0) n ne (HIN 0%nat 1 Rlt_0_1) Hs (Hss 0%nat 1)) as [SO SU].
  pose proof PI_RGT_0 as HPI. pose proof SO as (S1 & S2 & S3 & S4 & S5 & S6 & S7 & S8 & S9 & S10 & S11).
  cbn [angles_args s_radius s_np s_nsample s_vf s_wavelen s_radius2 s_conc s_pdi s_poly s_min s_structure s_form s_sdata s_nmatrix s_emstruct s_emform] in S1, S2, S3, S4, S6, S7, S8, S9.
  destruct (rho_of_input J S1 S2 S3 S4) as (rho & Er & Ev & Hr).
  specialize (Hr S7).
  destruct (scat_medium_ok (angles_args J 0) n SU S1 S2 S5 S6) as (x_eff' & Em' & _ & Hx').
  assert (Ex : x_eff' = x_eff). { change (scat_medium (angles_args J 0)) with (scat_medium J) in Em'. rewrite Emed in Em'. now injection Em' as ->. } subst x_eff'.
  destruct (max_other J S1 S2 S3) as [M1 M2].
  assert (Hmv : mean_volume J <> 0). { intros Q. rewrite Q, Rmult_0_r in Ev. lra. }
  assert (Elim : limit = rho * partial_section n (s_wavelen J) back). { unfold limit. rewrite <- Ev. field. exact Hmv. }
  set (dcs := scat_dcs factorial ang J (form_used J) (structure_used J) n x_eff) in *.
  assert (HD' : forall t, s_min J <= t <= PI -> dcs t = Ok (Some (P t), Some (S t)) /\ 0 <= P t /\ 0 <= S t).
  { intros t Ht. split; [exact (HD t Ht)|].
    destruct (dcs_ok factorial (ang (map (fun np => Cdiv np (RtoC n)) (s_np J))) (length (s_np J))
      (map (size_parameter (s_wavelen J) n) (s_radius J)) x_eff (s_vf J) (structure_used J) (form_used J) (scat_poly J n) (s_sdata J) t)
      as (S' & fp & fs & S0 & P0 & Q0 & _ & _ & E); try assumption; try lra.
    - intros. apply Ha.
    - pose proof (HD t Ht) as Q. unfold dcs, scat_dcs in Q. cbv zeta in Q. rewrite E in Q. injection Q as <- <-. split; now apply Rmult_le_pos. }
  destruct (C169_same_limit n (s_wavelen J) rho (s_min J) dcs P S whole back nev ntraj spot pmin pmax M D S5 S6 Hr ltac:(lra) HD' HW HB Hpos HM E1 E2 E3 E4 E5 Hnev Hnt Hu eps He)
    as (N0 & H0). exists N0. intros N HN. destruct (H0 N HN) as (p & sigma & Ep & d0 & Hd0 & Hd). clear H0. exists p, (rho * sigma).
  pose proof (Hss N 1) as HsN. destruct HsN as (F1 & F2 & F3 & F4 & F5 & F6 & F7 & F8 & F9 & F10 & F11 & F12 & F13 & F14 & F15 & F16 & F17 & F18 & F19).
  cbn [film_args i_nparticle i_nmatrix i_nmedium i_wavelen i_radius i_vf i_radius2 i_conc i_pdi i_small i_num i_structure i_form i_sdata i_emstruct i_emform i_mg
       angles_args s_radius s_np s_nsample s_vf s_wavelen s_radius2 s_conc s_pdi s_poly s_fine s_min s_num s_structure s_form s_sdata s_nmatrix s_emstruct s_emform] in F1, F2, F3, F4, F5, F6, F7, F8, F10, F11, F12, F13, F14, F15, F16, F17.
  split.
  { unfold calc_scat. change (scat_medium (angles_args J N)) with (scat_medium J). rewrite Emed. cbn [bind].
    rewrite (scat_types_ok (angles_args J N) S9). cbn [bind]. unfold scat_phase. cbn [RtoC fst snd].
    rewrite (proj2 (Reqb_true 0 0) eq_refl). cbn [negb].
    cbn [angles_args s_radius s_np s_vf s_wavelen s_fine s_min s_num s_sdata]. rewrite map_length.
    change (scat_poly (angles_args J N) n) with (scat_poly J n). change (form_used (angles_args J N)) with (form_used J). change (structure_used (angles_args J N)) with (structure_used J).
    change (other_radius (angles_args J N)) with (other_radius J).
    match goal with |- context [phase_function ?f ?k ?g] => replace (phase_function f k g) with (Ok (map Some p, Some sigma)) by (symmetry; exact Ep) end.
    cbn [bind fst snd]. change (s_conc (angles_args J N)) with (s_conc J). rewrite Er, (proj2 (Rltb_false _ _)) by lra. cbn [nmap2].
    f_equal. f_equal. unfold Rdiv. ring. }
  exists d0. split; [exact Hd0|]. intros d Hdd. destruct (Hd d Hdd) as (r & o & u & R1 & R2 & R3 & R4 & R5). exists r, o, u.
  rewrite Elim. split; [exact R1|]. split; [|split; [exact R3|split; [exact R4|exact R5]]]. rewrite <- R2.
  destruct (reflection_gives_full fsolve factorial ang cabs absorbing (film_args I N d) n ne (HIN N d ltac:(lra)) Hs Ha ltac:(intros; rewrite Hc; lra))
    as (A & dcs0 & P0 & Q0 & ER & G & Hg & B1 & B2 & B3 & B4 & B5 & B6 & B7 & B8 & B9 & B10 & B11 & B12 & B13 & Ed).
  rewrite ER. clear ER.
  cbn [film_args i_nparticle i_nmatrix i_nmedium i_wavelen i_radius i_vf i_radius2 i_conc i_pdi i_thickness i_tmin i_tmax i_pmin i_pmax i_inc i_small i_num i_structure i_form i_sdata] in B1, B3, B4, B5, B6, B7, B8, B9, B10, B11, B12, B13, Ed.
  assert (Exe : (match ne with
                 | Some z => Some (map (fun r => Cmod (Cmult z (RtoC (size_parameter (i_wavelen I) 1 r)))) (i_radius I))
                 | None => None end) = x_eff).
  { clear - Hs Emed F1 F4 F13 F14 F15 F16. unfold sample_is, choose_sample in Hs. rewrite F16 in Hs.
    unfold scat_medium in Emed. rewrite F13, <- F14, <- F15 in Emed. rewrite F1, F4.
    destruct (i_emform I), (i_emstruct I); cbn [bind] in Hs; try discriminate;
      injection Hs as Hn Hne; injection Emed as Hm Hx; subst; reflexivity. }
  assert (Epol : refl_poly (film_args I N d) n = scat_poly J n).
  { change (scat_poly J n) with (scat_poly (angles_args J N) n). eapply same_poly; [exact (Hss N d)|exact S1|]. intros r2 Hr2. now apply S3. }
  assert (Edcs : dcs0 = dcs).
  { rewrite Ed. cbv zeta. rewrite Exe, Epol, F1, F2, F3, F4, F10, F11, F12. reflexivity. }
  assert (Erho : a_rho A = rho).
  { rewrite B9, F1, F3, F5, F6. fold (other_radius J). exact (rho_agree _ _ _ _ _ Er M1 M2 F18). }
  assert (EA : A = matched_args n (s_wavelen J) rho (s_min J) d N).
  { rewrite Hc in B10. rewrite Em in B1. rewrite F4 in B11. rewrite F8 in B13. destruct A as [a1 a2 a3 a4 a5 a6 a7 a8 a9 a10 a11 a12 a13].
    cbn [a_nmedium a_nsample a_wavelen a_rho a_cabs a_thickness a_tmin a_tmax a_pmin a_pmax a_inc a_num a_small] in *. unfold matched_args. subst. reflexivity. }
  rewrite Edcs, EA. reflexivity.
Qed.
Print Assumptions C169_sample.

(** Isotropic scatterers: unpolarised cross section 1, half of the light goes
    backwards. *)
Lemma sin_int a b : is_RInt (fun t => unpol (fun _ => 1) (fun _ => 1) t * sin t) a b (cos a - cos b).
Proof.
  refine (eq_ind _ (fun v => is_RInt _ a b v) (is_RInt_derive (fun t => - cos t) (fun t => unpol (fun _ => 1) (fun _ => 1) t * sin t) a b _ _) _ _).
  - intros x _. auto_derive; [exact Logic.I|]. unfold unpol. match goal with |- @eq _ ?l ?r => change (@eq R l r) end. field.
  - intros x _. apply continuous_ext with sin; [intros t; unfold unpol; match goal with |- @eq _ ?l ?r => change (@eq R l r) end; field|]. apply continuity_pt_filterlim, continuity_sin.
  - unfold minus, plus, opp. cbn. ring.
Qed.
Definition isotropic_film : params := mk_params 10 (6 / 5) (6 / 5) film 0 (PI / 2) None None false 20 (1 / 100) 0 None None None 0 None None.
Example C169_case :
  is_RInt (fun t => unpol (fun _ => 1) (fun _ => 1) t * sin t) 0 PI 2 /\ is_RInt (fun t => unpol (fun _ => 1) (fun _ => 1) t * sin t) (PI / 2) PI 1
  /\ plain_film isotropic_film /\ p_nmedium isotropic_film = 6 / 5 /\ p_nsample isotropic_film = 6 / 5 /\ p_muabs isotropic_film = 0
  /\ p_nfront isotropic_film = None /\ p_nback isotropic_film = None /\ (forall m i, 0 <= d_u single_draws m i < 1).
Proof.
  split; [refine (eq_ind _ (fun v : R => is_RInt _ 0 PI v) (sin_int 0 PI) _ _); rewrite cos_0, cos_PI; rring|].
  split; [refine (eq_ind _ (fun v : R => is_RInt _ (PI / 2) PI v) (sin_int (PI / 2) PI) _ _); rewrite cos_PI2, cos_PI; rring|]. split.
  { unfold plain_film, isotropic_film. cbn. repeat (split; [solve [reflexivity|lra]|]). split; intros ? Q; discriminate Q. }
  repeat (split; [reflexivity|]). intros m i. cbn. lra.
Qed.

(** Separate spheres (no structure factor) of an isotropic form factor in a
    medium of their own surroundings' index. *)
Definition loose_sample : refl_in :=
  mk_rin (cons (RtoC 1.5) nil) (RtoC 1) 1 0.5 (cons 0.1 nil) 0.5 None None None (Some 10) (PI / 2) PI 0 (2 * PI) 0 200 0.1
    S_none (Some "sphere"%string) true None false false.
Definition loose_scat (nsample : C) : scat_in :=
  mk_sin (cons 0.1 nil) (cons (RtoC 1.5) nil) nsample 0.5 0.5 None None None false 0 0.1 200 S_none
    (Some "sphere"%string) None (Some (RtoC 1)) false false.
Example C169_sample_case : exists z, forall fsolve, let J := loose_scat z in
  inputs_ok (fun _ => 1) loose_sample 1 None /\ sample_is fsolve loose_sample 1 None
  /\ (forall N d, same_sample fsolve (film_args loose_sample N d) (angles_args J N))
  /\ scat_medium J = Ok (RtoC 1, None)
  /\ (forall t, scat_dcs (fun _ => 1) (fun _ _ _ => (1, 1)) J (form_used J) (structure_used J) 1 None t = Ok (Some 1, Some 1))
  /\ is_RInt (fun t => unpol (fun _ => 1) (fun _ => 1) t * sin t) (s_min J) PI (cos (s_min J) + 1) /\ 0 < cos (s_min J) + 1.
Proof.
  pose proof PI_RGT_0. pose proof PI2_3_2.
  destruct C114_case as [z Hz]. exists z. intros fsolve. cbv zeta. destruct (Hz fsolve) as (_ & _ & G). cbv zeta in G.
  destruct G as (_ & _ & _ & _ & _ & _ & _ & _ & _ & _ & _ & _ & _ & _ & _ & En & _).
  split; [|split; [reflexivity|split; [|split; [reflexivity|split; [|split]]]]].
  - unfold inputs_ok, loose_sample; cbn.
    split; [reflexivity|]. split; [discriminate|]. split; [constructor; [lra|constructor]|].
    split; [discriminate|]. split; [discriminate|]. split; [lra|]. split; [discriminate|].
    split; [lra|]. split; [lra|]. split; [lra|].
    split; [intros L X; injection X as <-; lra|].
    do 4 (split; [lra|]). split; [split; lra|]. split; [split; lra|].
    split; [right; left; reflexivity|]. exact Logic.I.
  - intros N d. unfold same_sample, film_args, angles_args, loose_sample, loose_scat; cbn -[n_eff vf_array].
    repeat (split; [reflexivity|]). split; [exact En|]. split; [lra|]. split; [discriminate|]. now left.
  - intros t. unfold scat_dcs, differential_cross_section. cbn. now rewrite Rmult_1_l.
  - refine (eq_ind _ (fun v : R => is_RInt _ (s_min (loose_scat z)) PI v) (sin_int _ PI) _ _). rewrite cos_PI. rring.
  - cbn. pose proof (cos_gt_0 0.1 ltac:(lra) ltac:(lra)). lra.
Qed.
