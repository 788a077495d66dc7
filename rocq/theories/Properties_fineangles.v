(** C172: on fine angle grids the sampled angles follow the cross section. *)
From Coq Require Import Lra Lia Psatz Reals List.
From Verif Require Import Num Spec Spec_scatter Spec_reflection Spec_scat Spec_diffuse Spec_agree
  M_montecarlo M_reflection M_scat
  L_num L_trapezoid L_reflection L_reflection2 L_scat L_dcs L_sampling L_diffuse L_agree L_slots L_montecarlo2 L_leave
  Properties_agree.
From Coquelicot Require Import Coquelicot.
Import ListNotations.
Open Scope R_scope.
Local Notation avg := Spec_diffuse.average.

Section Fine.
Variables (lo : R) (U h : R -> R) (whole wh : R).
Hypothesis (Hlo : 0 <= lo <= PI / 2).
Let f1 (t : R) := U t * sin t.
Let f2 (t : R) := U t * sin t * h t.
Hypothesis (HI : is_RInt f1 lo PI whole) (HH : is_RInt f2 lo PI wh) (Hpos : 0 < whole).
Variable c2 : R.
Lemma ratio_limits eps : 0 < eps -> exists N0, forall N, (N0 <= N)%nat -> (1 < N)%nat /\ 0 < trap_int f1 (linspace lo PI N) /\ 0 < lsum f1 (linspace lo PI N)
  /\ Rabs (c2 * trap_int f1 (linspace lo PI N) - c2 * whole) < eps /\ Rabs (lsum f2 (linspace lo PI N) / lsum f1 (linspace lo PI N) - wh / whole) < eps.
Proof.
  intros He. pose proof PI_RGT_0. assert (A1 : lo < PI) by lra.
  assert (B1 : is_lim_seq (fun N => trap_int f1 (linspace lo PI N)) whole) by (apply to_lim; exact (trap_lim f1 lo PI whole A1 HI)).
  assert (B2 : is_lim_seq (fun N => lsum f1 (linspace lo PI N)) whole) by (apply to_lim; exact (lsum_lim f1 lo PI whole A1 HI)).
  assert (B3 : is_lim_seq (fun N => lsum f2 (linspace lo PI N)) wh) by (apply to_lim; exact (lsum_lim f2 lo PI wh A1 HH)).
  assert (B4 : is_lim_seq (fun N => c2 * trap_int f1 (linspace lo PI N)) (c2 * whole)) by (apply is_lim_seq_mult'; [apply is_lim_seq_const|exact B1]).
  assert (B5 : is_lim_seq (fun N => lsum f2 (linspace lo PI N) / lsum f1 (linspace lo PI N)) (wh / whole)) by (apply is_lim_seq_div'; [exact B3|exact B2|lra]).
  destruct (of_lim _ _ B1 whole Hpos) as [N1 H1]. destruct (of_lim _ _ B2 whole Hpos) as [N2 H2].
  destruct (of_lim _ _ B4 eps He) as [N3 H3]. destruct (of_lim _ _ B5 eps He) as [N4 H4]. exists (2 + N1 + N2 + N3 + N4)%nat. intros N HN.
  split; [lia|]. specialize (H1 N ltac:(lia)). specialize (H2 N ltac:(lia)). apply Rabs_def2 in H1, H2. split; [lra|]. split; [lra|].
  split; [apply H3; lia|apply H4; lia].
Qed.
End Fine.

(** The phase function calculation alone. *)
Lemma fine_phase n w lo dcs P S (h : R -> R) (whole wh : R) :
  0 < n -> 0 < w -> 0 <= lo <= PI / 2 -> (forall t, lo <= t <= PI -> dcs t = Ok (Some (P t), Some (S t)) /\ 0 <= P t /\ 0 <= S t) ->
  is_RInt (fun t => unpol P S t * sin t) lo PI whole -> is_RInt (fun t => unpol P S t * sin t * h t) lo PI wh -> 0 < whole ->
  forall eps, 0 < eps -> exists N0, forall N, (N0 <= N)%nat ->
    exists p sigma, phase_function dcs (2 * PI * n / w) (linspace lo PI N) = Ok (map Some p, Some sigma)
      /\ List.Forall (fun x => 0 <= x) p /\ 0 < total (map (angle_weight p lo) (seq 0 (length p)))
      /\ Rabs (sigma - partial_section n w whole) < eps /\ Rabs (avg p lo h - wh / whole) < eps.
Proof.
  intros Hn Hw Hlo HD HI HH Hpos eps He. pose proof PI_RGT_0 as HPI.
  assert (HPS : forall t, lo <= t <= PI -> 0 <= P t /\ 0 <= S t) by (intros t Ht; exact (proj2 (HD t Ht))).
  pose proof (k_positive n w Hn Hw) as Hk. set (k := 2 * PI * n / w) in *. set (U := unpol P S) in *. set (c2 := 2 * PI / k ^ 2).
  destruct (ratio_limits lo U h whole wh Hlo HI HH Hpos c2 eps He) as [N0 H0]. exists N0. intros N HN.
  destruct (H0 N HN) as (HN1 & HT & HL & HX & HY). clear H0.
  set (g := linspace lo PI N) in *. set (f1 := fun t => U t * sin t) in *. set (f2 := fun t => U t * sin t * h t) in *.
  assert (Gin : forall t, In t g -> lo <= t <= PI) by (intros t Ht; apply L_montecarlo2.linspace_in in Ht; lra).
  set (hh := (PI - lo) / INR (N - 1)). assert (Hh : 0 < hh) by (unfold hh; apply Rmult_lt_0_compat; [lra|apply Rinv_0_lt_compat, lt_0_INR; lia]).
  assert (L1 : lsum f1 g = hh * total (map f1 g)) by (unfold g, hh; apply lsum_total; [unfold f1; rewrite sin_PI; ring|exact HN1]).
  assert (L2 : lsum f2 g = hh * total (map f2 g)) by (unfold g, hh; apply lsum_total; [unfold f2; rewrite sin_PI; ring|exact HN1]).
  assert (T1 : 0 < total (map f1 g)) by (rewrite L1 in HL; destruct (Rlt_le_dec 0 (total (map f1 g))) as [Q|Q]; [exact Q|nra]).
  set (tot := total (map (fun t => P t + S t) g)).
  assert (Htot : 0 < tot).
  { apply Rlt_le_trans with (1 := T1). apply total_le. intros t Ht. pose proof (Gin t Ht) as Gt. destruct (HPS t Gt) as [Q1 Q2]. pose proof (SIN_bound t). pose proof (sin_ge_0 t ltac:(lra) ltac:(lra)). unfold f1, U, unpol. nra. }
  set (c := tot / 2). assert (Hc : c <> 0) by (unfold c; apply Rgt_not_eq; lra).
  set (p := map (fun t => U t / c) g). exists p, (c2 * trap_int f1 g). split.
  { rewrite (phase_value dcs P S) by (exact Hk || intros t Ht; apply (HD t (Gin t Ht))). rewrite (phase_table P S g Htot). reflexivity. }
  assert (Hp : List.Forall (fun x => 0 <= x) p).
  { apply Forall_forall. intros x Hx. apply in_map_iff in Hx as (t & <- & Ht). destruct (HPS t (Gin t Ht)) as [Q1 Q2]. unfold U, unpol, c.
    apply Rmult_le_pos; [lra|left; apply Rinv_0_lt_compat; lra]. }
  split; [exact Hp|].
  assert (Hw0 : 0 < total (map (angle_weight p lo) (seq 0 (length p)))).
  { unfold p, g. rewrite (table_sum U lo N c Hc). apply Rmult_lt_0_compat; [exact T1|apply Rinv_0_lt_compat; unfold c; lra]. }
  split; [exact Hw0|]. split; [exact HX|].
  unfold p, g. rewrite (table_average U lo N c Hc) by (apply Rgt_not_eq; exact T1). fold g. fold f1. fold f2.
  replace (lsum f2 g / lsum f1 g) with (total (map f2 g) / total (map f1 g)) in HY by (rewrite L1, L2; field; split; lra). exact HY.
Qed.

(** C172.  calc_scat on N angles, and sample_angles on what it returns, for a
    sample without absorption, of unpolarised differential cross section
    U/k^2, U = (P + S)/2.  With enough angles the scattering coefficient is as
    close as you like to the number density times the total cross section, and
    the mean of any function of the scattering angle, over the random number it
    is drawn from, to the function's average over the scattered light, the
    integral of U h sin over the integral of U sin. *)
Theorem C172_fine_angles : forall factorial ang special J n x_eff P S (h : R -> R) (whole wh : R),
  scat_ok factorial J n -> surroundings J n -> s_fine J <= 0 -> (forall m y t, 0 <= fst (ang m y t) /\ 0 <= snd (ang m y t)) ->
  s_min J <= PI / 2 -> scat_medium J = Ok (RtoC n, x_eff) ->
  (forall t, s_min J <= t <= PI -> scat_dcs factorial ang J (form_used J) (structure_used J) n x_eff t = Ok (Some (P t), Some (S t))) ->
  is_RInt (fun t => unpol P S t * sin t) (s_min J) PI whole -> is_RInt (fun t => unpol P S t * sin t * h t) (s_min J) PI wh -> 0 < whole ->
  forall eps, 0 < eps -> exists N0, forall N, (N0 <= N)%nat ->
    exists p mu, calc_scat factorial ang special (angles_args J N) = Ok (mk_sout (map Some p) (Some mu) None 0)
      /\ Rabs (mu - s_vf J / mean_volume J * partial_section n (s_wavelen J) whole) < eps
      /\ exists (angle : R -> R) (v : R), (forall u_phi u, 0 <= u < 1 -> sample_angle_1d p (s_min J) u_phi u = Ok (angle u, 2 * PI * u_phi))
          /\ is_RInt (fun u => h (angle u)) 0 1 v /\ Rabs (v - wh / whole) < eps.
Proof.
  intros factorial ang special J n x_eff P S h whole wh SO SU Hf Ha Hmin Emed HD HW HH Hpos eps He.
  pose proof PI_RGT_0 as HPI. pose proof SO as (S1 & S2 & S3 & S4 & S5 & S6 & S7 & S8 & S9 & S10 & S11).
  destruct (rho_of_input J S1 S2 S3 S4) as (rho & Er & Ev & Hr). specialize (Hr S7).
  destruct (scat_medium_ok J n SU S1 S2 S5 S6) as (x_eff' & Em' & _ & Hx').
  assert (Ex : x_eff' = x_eff) by (rewrite Emed in Em'; now injection Em' as ->). subst x_eff'.
  assert (Hmv : mean_volume J <> 0). { intros Q. rewrite Q, Rmult_0_r in Ev. lra. }
  set (dcs := scat_dcs factorial ang J (form_used J) (structure_used J) n x_eff) in *.
  assert (HD' : forall t, s_min J <= t <= PI -> dcs t = Ok (Some (P t), Some (S t)) /\ 0 <= P t /\ 0 <= S t).
  { intros t Ht. split; [exact (HD t Ht)|].
    destruct (dcs_ok factorial (ang (map (fun np => Cdiv np (RtoC n)) (s_np J))) (length (s_np J))
      (map (size_parameter (s_wavelen J) n) (s_radius J)) x_eff (s_vf J) (structure_used J) (form_used J) (scat_poly J n) (s_sdata J) t)
      as (S' & fp & fs & S0 & P0 & Q0 & _ & _ & E); try assumption; try lra.
    - intros. apply Ha.
    - pose proof (HD t Ht) as Q. unfold dcs, scat_dcs in Q. cbv zeta in Q. rewrite E in Q. injection Q as <- <-. split; now apply Rmult_le_pos. }
  set (e := Rmin eps (eps / rho)). assert (He' : 0 < e) by (apply Rmin_pos; [exact He|now apply Rdiv_lt_0_compat]).
  assert (E1 : e <= eps) by apply Rmin_l. assert (E2 : e <= eps / rho) by apply Rmin_r.
  destruct (fine_phase n (s_wavelen J) (s_min J) dcs P S h whole wh S5 S6 ltac:(lra) HD' HW HH Hpos e He') as [N0 H0]. exists N0. intros N HN.
  destruct (H0 N HN) as (p & sigma & Ep & Fp & Wp & Q1 & Q2). exists p, (rho * sigma). split.
  { unfold calc_scat. change (scat_medium (angles_args J N)) with (scat_medium J). rewrite Emed. cbn [bind].
    rewrite (scat_types_ok (angles_args J N) S9). cbn [bind]. unfold scat_phase. cbn [RtoC fst snd].
    rewrite (proj2 (Reqb_true 0 0) eq_refl). cbn [negb].
    cbn [angles_args s_radius s_np s_vf s_wavelen s_fine s_min s_num s_sdata]. rewrite map_length.
    change (scat_poly (angles_args J N) n) with (scat_poly J n). change (form_used (angles_args J N)) with (form_used J). change (structure_used (angles_args J N)) with (structure_used J).
    change (other_radius (angles_args J N)) with (other_radius J).
    match goal with |- context [phase_function ?f ?k ?g] => replace (phase_function f k g) with (Ok (map Some p, Some sigma)) by (symmetry; exact Ep) end.
    cbn [bind fst snd]. change (s_conc (angles_args J N)) with (s_conc J). rewrite Er, (proj2 (Rltb_false _ _)) by lra. cbn [nmap2].
    f_equal. f_equal. unfold Rdiv. ring. }
  split.
  { rewrite <- Ev. replace (rho * mean_volume J / mean_volume J) with rho by (field; exact Hmv). rewrite <- Rmult_minus_distr_l, Rabs_mult, (Rabs_pos_eq rho) by lra.
    apply Rlt_le_trans with (rho * e); [now apply Rmult_lt_compat_l|]. apply (Rmult_le_compat_l rho) in E2; [|lra]. replace (rho * (eps / rho)) with eps in E2 by (field; lra). exact E2. }
  assert (Hlo : 0 <= s_min J <= PI) by lra. exists (polar p (s_min J)), (avg p (s_min J) h). split; [|split; [now apply polar_integral|lra]].
  intros up u Hu. destruct (angle_1d p (s_min J) up u Hlo Fp Hu Wp) as (i & Ei & _). rewrite Ei. f_equal. f_equal.
  unfold polar. unfold sample_angle_1d in *. destruct (choice _ _) as [q|]; [|discriminate]. cbn [bind fst] in *. now injection Ei as ->.
Qed.
Print Assumptions C172_fine_angles.

(** The probability of a scattering angle up to t tends to the share of the light
    scattered into such angles. *)
Theorem C172_distribution : forall factorial ang special J n x_eff P S (t part whole : R),
  scat_ok factorial J n -> surroundings J n -> s_fine J <= 0 -> (forall m y t, 0 <= fst (ang m y t) /\ 0 <= snd (ang m y t)) ->
  s_min J <= PI / 2 -> scat_medium J = Ok (RtoC n, x_eff) ->
  (forall t, s_min J <= t <= PI -> scat_dcs factorial ang J (form_used J) (structure_used J) n x_eff t = Ok (Some (P t), Some (S t))) ->
  s_min J <= t <= PI -> is_RInt (fun t => unpol P S t * sin t) (s_min J) t part ->
  is_RInt (fun t => unpol P S t * sin t) (s_min J) PI whole -> 0 < whole ->
  forall eps, 0 < eps -> exists N0, forall N, (N0 <= N)%nat ->
    exists p mu, calc_scat factorial ang special (angles_args J N) = Ok (mk_sout (map Some p) (Some mu) None 0)
      /\ exists (angle : R -> R) (prob : R), (forall u_phi u, 0 <= u < 1 -> sample_angle_1d p (s_min J) u_phi u = Ok (angle u, 2 * PI * u_phi))
          /\ is_RInt (fun u => if Rleb (angle u) t then 1 else 0) 0 1 prob /\ Rabs (prob - part / whole) < eps.
Proof.
  intros factorial ang special J n x_eff P S t part whole SO SU Hf Ha Hmin Emed HD Ht Hpart HW Hpos eps He. set (lo := s_min J) in *.
  assert (HH : is_RInt (fun x => unpol P S x * sin x * (if Rleb x t then 1 else 0)) lo PI part).
  { refine (eq_ind _ (fun v : R => is_RInt _ lo PI v) (is_RInt_Chasles _ lo t PI part 0 _ _) _ _).
    - refine (is_RInt_ext (fun x => unpol P S x * sin x) _ _ _ _ _ Hpart). intros x Hx. rewrite Rmin_left, Rmax_right in Hx by lra. rewrite (proj2 (Rleb_true _ _)) by lra. rring.
    - refine (is_RInt_ext (fun _ : R => 0) _ _ _ _ _ _).
      + intros x Hx. rewrite Rmin_left, Rmax_right in Hx by lra. rewrite (proj2 (Rleb_false _ _)) by lra. rring.
      + refine (eq_ind _ (fun v : R => is_RInt (fun _ : R => 0) t PI v) (is_RInt_const t PI 0) _ _). unfold scal. cbn. unfold mult. cbn. ring.
    - unfold plus. cbn. ring. }
  destruct (C172_fine_angles factorial ang special J n x_eff P S _ whole part SO SU Hf Ha Hmin Emed HD HW HH Hpos eps He) as [N0 H0]. exists N0. intros N HN.
  destruct (H0 N HN) as (p & mu & E & _ & angle & v & A1 & A2 & A3). exists p, mu. split; [exact E|]. exists angle, v. auto.
Qed.
Print Assumptions C172_distribution.

(** Separate spheres that scatter evenly in all directions: the distribution of
    the cosine is uniform. *)
Example C172_case : exists z, let J := loose_scat z in
  scat_ok (fun _ => 1) J 1 /\ surroundings J 1 /\ s_fine J <= 0 /\ s_min J <= PI / 2 /\ scat_medium J = Ok (RtoC 1, None)
  /\ (forall t, scat_dcs (fun _ => 1) (fun _ _ _ => (1, 1)) J (form_used J) (structure_used J) 1 None t = Ok (Some 1, Some 1))
  /\ (forall t, is_RInt (fun t => unpol (fun _ => 1) (fun _ => 1) t * sin t) (s_min J) t (cos (s_min J) - cos t)).
Proof.
  destruct C169_sample_case as [z Hz]. exists z. cbv zeta. destruct (Hz (fun _ => RtoC 1)) as (A1 & A2 & A3 & A4 & A5 & _ & _).
  pose proof PI_RGT_0. pose proof PI2_3_2.
  assert (G : inputs_ok (fun _ => 1) (film_args loose_sample 200 1) 1 None).
  { unfold inputs_ok, film_args, loose_sample; cbn.
    split; [reflexivity|]. split; [discriminate|]. split; [constructor; [lra|constructor]|].
    split; [discriminate|]. split; [discriminate|]. split; [lra|]. split; [discriminate|].
    split; [lra|]. split; [lra|]. split; [lra|].
    split; [intros L X; injection X as <-; lra|].
    do 4 (split; [lra|]). split; [split; lra|]. split; [split; lra|].
    split; [right; left; reflexivity|]. exact Logic.I. }
  destruct (same_ok (fun _ => RtoC 1) (fun _ => 1) (film_args loose_sample 200 1) (angles_args (loose_scat z) 200) 1 None G A2 (A3 200%nat 1)) as [B1 B2].
  split; [exact B1|]. split; [exact B2|]. split; [cbn; lra|]. split; [cbn; lra|]. split; [exact A4|]. split; [exact A5|]. intros t. apply sin_int.
Qed.
