(** C170: a coverslip passes light like a stack of two surfaces. *)
From Coq Require Import Lra Lia Psatz Reals List.
From Verif Require Import Num Spec Spec_oblique Spec_coverslip M_model M_detector L_num L_fresnel L_weights L_direct L_oblique.
Import ListNotations.
Open Scope R_scope.

Lemma EPS_pos : 0 < EPS.
Proof. unfold EPS; apply Rinv_0_lt_compat, pow_lt; lra. Qed.
Lemma snell_refracted a ta g tg : 0 < g -> 0 <= tg < PI / 2 -> snell a ta g tg -> refracted a ta g = tg.
Proof.
  intros Hg Ht H. pose proof PI_RGT_0. unfold refracted, snell in *. rewrite H. replace (g * sin tg / g) with (sin tg) by (field; lra). apply asin_sin. lra.
Qed.
Lemma unpolarized_surface a ta g tg : 0 < g -> 0 <= tg < PI / 2 -> snell a ta g tg -> unpolarized_R a g ta = surface_R a ta g tg.
Proof. intros Hg Ht H. unfold unpolarized_R, surface_R. now rewrite (snell_refracted a ta g tg). Qed.
Lemma surface_sym a ta g tg : surface_R g tg a ta = surface_R a ta g tg.
Proof. unfold surface_R, textbook_Rp, textbook_Rs, Rdiv. rewrite !Rpow_mult_distr.
  replace (g * cos ta + a * cos tg) with (a * cos tg + g * cos ta) by ring. replace (g * cos tg + a * cos ta) with (a * cos ta + g * cos tg) by ring. ring.
Qed.
Lemma square_share x y : 0 < x -> 0 < y -> 0 <= ((x - y) / (x + y)) ^ 2 < 1.
Proof.
  intros Hx Hy. split; [apply pow2_ge_0|]. unfold Rdiv. rewrite Rpow_mult_distr, pow_inv. apply Rmult_lt_reg_r with ((x + y) ^ 2); [apply pow_lt; lra|].
  rewrite Rmult_assoc, Rinv_l, Rmult_1_r, Rmult_1_l by (apply pow_nonzero; lra). nra.
Qed.
Lemma surface_range a ta g tg : 0 < a -> 0 < g -> 0 <= ta < PI / 2 -> 0 <= tg < PI / 2 -> 0 <= surface_R a ta g tg < 1.
Proof.
  intros Ha Hg H1 H2. assert (C1 : 0 < cos ta) by (apply cos_gt_0; lra). assert (C2 : 0 < cos tg) by (apply cos_gt_0; lra).
  unfold surface_R, textbook_Rp, textbook_Rs. pose proof (square_share (a * cos tg) (g * cos ta) ltac:(nra) ltac:(nra)). pose proof (square_share (a * cos ta) (g * cos tg) ltac:(nra) ltac:(nra)). lra.
Qed.
Lemma snell_admits a ta g tg : 0 < g -> 0 <= tg < PI / 2 -> snell a ta g tg -> a * sin ta < g.
Proof.
  intros Hg Ht H. unfold snell in H. rewrite H. assert (sin tg < 1) by (rewrite <- sin_PI2; apply sin_increasing_1; lra). nra.
Qed.

(** The value, for one angle. *)
Definition stack (Rf Rn Rb : R) : R := (1 - Rf) * (1 - Rb) / (1 - Rb * Rn + EPS).
Lemma slip_value a ta g tg b tb : ray a ta g tg b tb ->
  fresnel_pass_frac a (Some g) b [ta] = Ok [stack (surface_R a ta g tg) (surface_R g tg a ta) (surface_R g tg b tb)].
Proof.
  intros (Ha & Hg & Hb & H1 & H2 & H3 & S1 & S2). rewrite pass_frac_ok by (constructor; [lra|constructor]). cbn [map].
  assert (S3 : a * sin ta < b) by (unfold snell in S1; rewrite S1; exact (snell_admits g tg b tb Hb H3 S2)).
  rewrite pf1_at; try assumption.
  - unfold through_at. rewrite (snell_refracted a ta g tg Hg H2 S1). rewrite (unpolarized_surface a ta g tg Hg H2 S1), (unpolarized_surface g tg b tb Hb H3 S2).
    rewrite (unpolarized_surface g tg a ta Ha H1) by (symmetry; exact S1). reflexivity.
  - intros m Q. injection Q as <-. split; [exact Hg|exact (snell_admits a ta g tg Hg H2 S1)].
Qed.
Lemma bare_value a ta b tb : 0 < a -> 0 < b -> 0 <= ta < PI / 2 -> 0 <= tb < PI / 2 -> snell a ta b tb ->
  fresnel_pass_frac a None b [ta] = Ok [(1 - surface_R a ta b tb) / (1 + EPS)].
Proof.
  intros Ha Hb H1 H2 S1. pose proof EPS_pos. change (fresnel_pass_frac a None b [ta]) with (fresnel_pass_frac a (Some a) b [ta]).
  assert (C : 0 < cos ta) by (apply cos_gt_0; lra). rewrite (slip_value a ta a ta b tb) by (unfold ray; repeat split; try lra; exact S1).
  assert (E : surface_R a ta a ta = 0). { unfold surface_R, textbook_Rp, textbook_Rs. field. assert (a * cos ta <> 0) by (apply Rgt_not_eq; now apply Rmult_lt_0_compat). lra. }
  unfold stack. rewrite E. f_equal. f_equal. field. lra.
Qed.

(** ** Adding up the reflections *)
Section Sum.
Variables (f n b : R).
Hypothesis (Hf : 0 <= f < 1) (Hn : 0 <= n < 1) (Hb : 0 <= b < 1).
Lemma bounce_pow k : bouncing f n b k = (1 - f) * (b * n) ^ k.
Proof. induction k as [|k IH]; cbn [bouncing pow]; [ring|]. rewrite IH. ring. Qed.
Lemma ratio : 0 <= b * n < 1.
Proof. split; [now apply Rmult_le_pos|]. nra. Qed.
Lemma passed_sum k : passed f n b k = (1 - f) * (1 - b) / (1 - b * n) * (1 - (b * n) ^ k).
Proof.
  pose proof ratio. induction k as [|k IH]; cbn [passed pow]; [ring|]. rewrite IH, bounce_pow. field. lra.
Qed.
Lemma all_light k : passed f n b k + returned f n b k + bouncing f n b k = 1.
Proof. induction k as [|k IH]; cbn [passed returned bouncing]; [ring|]. etransitivity; [|exact IH]. ring. Qed.
Lemma bounce_dies : Un_cv (bouncing f n b) 0.
Proof.
  pose proof ratio as Hr. intros eps He. destruct (pow_lt_1_zero (b * n) ltac:(rewrite Rabs_pos_eq; lra) eps He) as [N HN]. exists N. intros k Hk.
  unfold R_dist. rewrite Rminus_0_r, bounce_pow, Rabs_mult, (Rabs_pos_eq (1 - f)) by lra. specialize (HN k Hk). pose proof (Rabs_pos ((b * n) ^ k)). nra.
Qed.
Lemma passed_lim : Un_cv (passed f n b) ((1 - f) * (1 - b) / (1 - b * n)).
Proof.
  pose proof ratio as Hr. set (q := (1 - f) * (1 - b) / (1 - b * n)).
  assert (Q : forall k, passed f n b k = q - (1 - b) / (1 - b * n) * bouncing f n b k) by (intros k; rewrite passed_sum, bounce_pow; unfold q; field; lra).
  intros eps He. set (c := (1 - b) / (1 - b * n)). assert (Hc : 0 < c) by (unfold c; apply Rdiv_lt_0_compat; lra).
  destruct (bounce_dies (eps / c)) as [N HN]; [now apply Rdiv_lt_0_compat|]. exists N. intros k Hk. specialize (HN k Hk). unfold R_dist in *. rewrite Rminus_0_r in HN.
  rewrite Q. fold c. replace (q - c * bouncing f n b k - q) with (- (c * bouncing f n b k)) by ring. rewrite Rabs_Ropp, Rabs_mult, (Rabs_pos_eq c) by lra.
  apply (Rmult_lt_compat_l c _ _ Hc) in HN. replace (c * (eps / c)) with eps in HN by (field; lra). exact HN.
Qed.
Lemma returned_lim : Un_cv (returned f n b) (1 - (1 - f) * (1 - b) / (1 - b * n)).
Proof.
  set (q := (1 - f) * (1 - b) / (1 - b * n)). intros eps He. destruct (passed_lim (eps / 2) ltac:(lra)) as [N1 H1]. destruct (bounce_dies (eps / 2) ltac:(lra)) as [N2 H2].
  exists (N1 + N2)%nat. intros k Hk. specialize (H1 k ltac:(lia)). specialize (H2 k ltac:(lia)). pose proof (all_light k) as A. unfold R_dist in *. fold q in H1.
  replace (returned f n b k - (1 - q)) with (- ((passed f n b k - q) + (bouncing f n b k - 0))) by lra. rewrite Rabs_Ropp.
  pose proof (Rabs_triang (passed f n b k - q) (bouncing f n b k - 0)). lra.
Qed.
Lemma stack_close : f = n -> stack f n b <= (1 - f) * (1 - b) / (1 - b * n) <= stack f n b + EPS.
Proof.
  pose proof ratio as Hr. intros ->. pose proof EPS_pos as He. unfold stack. set (x := b * n) in *.
  assert (T0 : 0 <= (1 - n) * (1 - b)) by (apply Rmult_le_pos; lra).
  assert (T1 : (1 - n) * (1 - b) <= (1 - x) * (1 - x + EPS)). { unfold x in *. assert (1 - n <= 1 - b * n) by nra. assert (1 - b <= 1 - b * n) by nra. nra. }
  assert (E : (1 - n) * (1 - b) / (1 - x) - (1 - n) * (1 - b) / (1 - x + EPS) = EPS * ((1 - n) * (1 - b) / ((1 - x) * (1 - x + EPS)))) by (field; split; lra).
  assert (D : 0 < (1 - x) * (1 - x + EPS)) by (apply Rmult_lt_0_compat; lra).
  assert (Z : 0 <= (1 - n) * (1 - b) / ((1 - x) * (1 - x + EPS)) <= 1).
  { split; [apply Rmult_le_pos; [exact T0|left; now apply Rinv_0_lt_compat]|]. apply (Rmult_le_reg_r _ _ _ D). unfold Rdiv. rewrite Rmult_assoc, Rinv_l, Rmult_1_r, Rmult_1_l by lra. exact T1. }
  nra.
Qed.
End Sum.

(** C170.  fresnel_pass_frac is the sum over any number of reflections inside the
    coverslip: what leaves through its second surface after k round trips tends to
    a number q, what has come back to 1 - q, and the code's value differs from q
    by at most the 1e-9 in its denominator. *)
Theorem C170_all_reflections : forall a ta g tg b tb, ray a ta g tg b tb ->
  let front := surface_R a ta g tg in let near := surface_R g tg a ta in let far := surface_R g tg b tb in
  exists p q, fresnel_pass_frac a (Some g) b [ta] = Ok [p]
    /\ Un_cv (passed front near far) q /\ Un_cv (returned front near far) (1 - q) /\ p <= q <= p + / 10 ^ 9.
Proof.
  intros a ta g tg b tb H front near far. pose proof H as (Ha & Hg & Hb & H1 & H2 & H3 & S1 & S2).
  pose proof (surface_range a ta g tg Ha Hg H1 H2) as F1. pose proof (surface_range g tg a ta Hg Ha H2 H1) as F2. pose proof (surface_range g tg b tb Hg Hb H2 H3) as F3.
  fold front in F1. fold near in F2. fold far in F3.
  exists (stack front near far), ((1 - front) * (1 - far) / (1 - far * near)). split; [exact (slip_value a ta g tg b tb H)|].
  split; [now apply passed_lim|]. split; [now apply returned_lim|]. change (/ 10 ^ 9) with EPS.
  apply stack_close; try assumption. symmetry. apply surface_sym.
Qed.
Print Assumptions C170_all_reflections.

(** It passes the same share of light both ways, with and without coverslip. *)
Theorem C170_both_ways : forall a ta g tg b tb, ray a ta g tg b tb ->
  fresnel_pass_frac a (Some g) b [ta] = fresnel_pass_frac b (Some g) a [tb]
  /\ (snell a ta b tb -> fresnel_pass_frac a None b [ta] = fresnel_pass_frac b None a [tb]).
Proof.
  intros a ta g tg b tb H. pose proof H as (Ha & Hg & Hb & H1 & H2 & H3 & S1 & S2). split.
  - rewrite (slip_value a ta g tg b tb H). rewrite (slip_value b tb g tg a ta) by (unfold ray, snell in *; auto 12).
    rewrite (surface_sym a ta g tg), (surface_sym g tg b tb). unfold stack. f_equal. f_equal. f_equal; [ring|]. f_equal. ring.
  - intros S3. rewrite (bare_value a ta b tb), (bare_value b tb a ta) by (assumption || (symmetry; exact S3)). now rewrite (surface_sym a ta b tb).
Qed.
Print Assumptions C170_both_ways.

(** A coverslip of the index of either side changes nothing. *)
Theorem C170_matched_slip : forall a ta b tb, 0 < a -> 0 < b -> 0 <= ta < PI / 2 -> 0 <= tb < PI / 2 -> snell a ta b tb ->
  fresnel_pass_frac a (Some a) b [ta] = fresnel_pass_frac a None b [ta]
  /\ fresnel_pass_frac a (Some b) b [ta] = fresnel_pass_frac a None b [ta].
Proof.
  intros a ta b tb Ha Hb H1 H2 S1. split; [reflexivity|]. assert (C : 0 < cos tb) by (apply cos_gt_0; lra). pose proof EPS_pos.
  rewrite (slip_value a ta b tb b tb) by (unfold ray; repeat split; try lra; exact S1). rewrite (bare_value a ta b tb) by assumption.
  assert (E : surface_R b tb b tb = 0). { unfold surface_R, textbook_Rp, textbook_Rs. field. assert (b * cos tb <> 0) by (apply Rgt_not_eq; now apply Rmult_lt_0_compat). lra. }
  unfold stack. rewrite E. f_equal. f_equal. field. lra.
Qed.
Print Assumptions C170_matched_slip.

Lemma ray_normal a g b : 0 < a -> 0 < g -> 0 < b -> ray a 0 g 0 b 0.
Proof. intros Ha Hg Hb. pose proof PI_RGT_0. unfold ray, snell. rewrite sin_0. repeat split; lra. Qed.
Definition spread (a b g : R) : R := g + a * b / g.
Lemma inverse_value a b g : 0 < a -> 0 < g -> 0 < b -> exists p, fresnel_pass_frac a (Some g) b [0] = Ok [p] /\ 0 < p
  /\ / p = (a + b) * spread a b g / (4 * a * b) + EPS * (spread a b g + a + b) ^ 2 / (16 * a * b).
Proof.
  intros Ha Hg Hb. pose proof EPS_pos as He. rewrite (slip_value a 0 g 0 b 0 (ray_normal a g b Ha Hg Hb)). eexists. split; [reflexivity|].
  assert (X : 0 < a * g) by (now apply Rmult_lt_0_compat). assert (Y : 0 < g * b) by (now apply Rmult_lt_0_compat).
  assert (V : stack (surface_R a 0 g 0) (surface_R g 0 a 0) (surface_R g 0 b 0) = / ((a + b) * spread a b g / (4 * a * b) + EPS * (spread a b g + a + b) ^ 2 / (16 * a * b))).
  { assert (G : forall u v, u <> 0 -> v = / u -> v = / u) by auto. unfold stack, surface_R, textbook_Rp, textbook_Rs, spread. rewrite cos_0, !Rmult_1_r.
    set (N1 := 4 * a * g / (a + g) ^ 2). set (N2 := 4 * g * b / (g + b) ^ 2).
    assert (E1 : 1 - (((a - g) / (a + g)) ^ 2 + ((a - g) / (a + g)) ^ 2) / 2 = N1) by (unfold N1; field; lra).
    assert (E2 : 1 - (((g - b) / (g + b)) ^ 2 + ((g - b) / (g + b)) ^ 2) / 2 = N2) by (unfold N2; field; lra).
    assert (E3 : 1 - (((g - b) / (g + b)) ^ 2 + ((g - b) / (g + b)) ^ 2) / 2 * ((((g - a) / (g + a)) ^ 2 + ((g - a) / (g + a)) ^ 2) / 2) + EPS = N1 * N2 * ((a + b) * (g + a * b / g) / (4 * a * b) + EPS * (g + a * b / g + a + b) ^ 2 / (16 * a * b))) by (unfold N1, N2; field; repeat split; lra).
    rewrite E1, E2, E3.
    assert (P1 : 0 < N1) by (unfold N1; apply Rdiv_lt_0_compat; [lra|apply pow_lt; lra]). assert (P2 : 0 < N2) by (unfold N2; apply Rdiv_lt_0_compat; [lra|apply pow_lt; lra]).
    assert (S0 : 0 < g + a * b / g) by (assert (0 < a * b / g) by (apply Rdiv_lt_0_compat; [now apply Rmult_lt_0_compat|exact Hg]); lra).
    assert (P3 : 0 < (a + b) * (g + a * b / g) / (4 * a * b) + EPS * (g + a * b / g + a + b) ^ 2 / (16 * a * b)).
    { apply Rplus_lt_0_compat; apply Rdiv_lt_0_compat; try (apply Rmult_lt_0_compat; [|assumption]; lra); try (apply Rmult_lt_0_compat; lra).
      apply Rmult_lt_0_compat; [exact He|apply pow_lt; lra]. }
    set (Z := (a + b) * (g + a * b / g) / (4 * a * b) + EPS * (g + a * b / g + a + b) ^ 2 / (16 * a * b)) in *. field. repeat split; lra. }
  assert (S0 : 0 < spread a b g) by (unfold spread; assert (0 < a * b / g) by (apply Rdiv_lt_0_compat; [now apply Rmult_lt_0_compat|exact Hg]); lra).
  assert (P3 : 0 < (a + b) * spread a b g / (4 * a * b) + EPS * (spread a b g + a + b) ^ 2 / (16 * a * b)).
  { apply Rplus_lt_0_compat; apply Rdiv_lt_0_compat; try (apply Rmult_lt_0_compat; [|assumption]; lra); try (apply Rmult_lt_0_compat; lra).
    apply Rmult_lt_0_compat; [exact He|apply pow_lt; lra]. }
  rewrite V. split; [now apply Rinv_0_lt_compat|]. rewrite Rinv_inv. reflexivity.
Qed.
Lemma compare_slips a b g h p q : 0 < a -> 0 < b -> 0 < g -> 0 < h -> fresnel_pass_frac a (Some g) b [0] = Ok [p] -> fresnel_pass_frac a (Some h) b [0] = Ok [q] ->
  (p <= q <-> spread a b h <= spread a b g).
Proof.
  intros Ha Hb Hg Hh Ep Eq. pose proof EPS_pos as He.
  destruct (inverse_value a b g Ha Hg Hb) as (p' & Fp & Pp & Vp). destruct (inverse_value a b h Ha Hh Hb) as (q' & Fq & Pq & Vq).
  rewrite Ep in Fp. injection Fp as <-. rewrite Eq in Fq. injection Fq as <-.
  assert (S1 : 0 < spread a b g) by (unfold spread; assert (0 < a * b / g) by (apply Rdiv_lt_0_compat; [now apply Rmult_lt_0_compat|exact Hg]); lra).
  assert (S2 : 0 < spread a b h) by (unfold spread; assert (0 < a * b / h) by (apply Rdiv_lt_0_compat; [now apply Rmult_lt_0_compat|exact Hh]); lra).
  set (x := spread a b g) in *. set (y := spread a b h) in *.
  assert (AB : 0 < / (4 * a * b)) by (apply Rinv_0_lt_compat; apply Rmult_lt_0_compat; lra). assert (AC : 0 < / (16 * a * b)) by (apply Rinv_0_lt_compat; apply Rmult_lt_0_compat; lra).
  assert (M : forall u v, 0 < u -> u < v -> (a + b) * u / (4 * a * b) + EPS * (u + a + b) ^ 2 / (16 * a * b) < (a + b) * v / (4 * a * b) + EPS * (v + a + b) ^ 2 / (16 * a * b)).
  { intros u v Hu Huv. unfold Rdiv. apply Rplus_lt_compat; apply Rmult_lt_compat_r; try assumption; apply Rmult_lt_compat_l; try lra. nra. }
  split; intros L.
  - destruct (Rle_lt_dec y x) as [K|K]; [exact K|]. exfalso. pose proof (M x y S1 K) as Q. rewrite <- Vp, <- Vq in Q. apply Rinv_le_contravar in L; [lra|exact Pp].
  - destruct (Rle_lt_dec p q) as [K|K]; [exact K|]. exfalso. apply Rinv_lt_contravar in K; [|now apply Rmult_lt_0_compat]. rewrite Vp, Vq in K.
    destruct (Rle_lt_or_eq_dec _ _ L) as [L'|L']; [pose proof (M y x S2 L'); lra|]. rewrite L' in K. lra.
Qed.

(** Light along the normal: a coverslip lets through at least as much as none
    exactly if its index is between those of the two sides, and most at their
    geometric mean. *)
Theorem C170_best_slip : forall a g b p p0 pm, 0 < a -> 0 < g -> 0 < b ->
  fresnel_pass_frac a (Some g) b [0] = Ok [p] -> fresnel_pass_frac a None b [0] = Ok [p0] -> fresnel_pass_frac a (Some (sqrt (a * b))) b [0] = Ok [pm] ->
  (p0 <= p <-> Rmin a b <= g <= Rmax a b) /\ p <= pm.
Proof.
  intros a g b p p0 pm Ha Hg Hb Ep E0 Em. change (fresnel_pass_frac a None b [0]) with (fresnel_pass_frac a (Some a) b [0]) in E0.
  assert (AB : 0 < a * b) by (now apply Rmult_lt_0_compat). pose proof (sqrt_lt_R0 _ AB) as Hm. pose proof (sqrt_sqrt (a * b) ltac:(lra)) as Qm. split.
  - rewrite (compare_slips a b a g p0 p Ha Hb Ha Hg E0 Ep).
    assert (E : spread a b g - spread a b a = (g - a) * (g - b) / g) by (unfold spread; field; lra).
    assert (K : spread a b g <= spread a b a <-> (g - a) * (g - b) <= 0).
    { assert (Ig : 0 < / g) by (now apply Rinv_0_lt_compat). unfold Rdiv in E. split; intros L.
      - assert (Z : (g - a) * (g - b) * / g <= 0) by lra. destruct (Rle_lt_dec ((g - a) * (g - b)) 0) as [W|W]; [exact W|]. pose proof (Rmult_lt_0_compat _ _ W Ig). lra.
      - assert ((g - a) * (g - b) * / g <= 0) by nra. lra. }
    rewrite K. unfold Rmin, Rmax. destruct (Rle_dec a b); split; intros L; try nra; split; nra.
  - apply (compare_slips a b g (sqrt (a * b)) p pm Ha Hb Hg Hm Ep Em).
    assert (E : spread a b (sqrt (a * b)) = 2 * sqrt (a * b)). { unfold spread. rewrite <- Qm at 2. field. lra. }
    rewrite E. assert (F : spread a b g - 2 * sqrt (a * b) = (g - sqrt (a * b)) ^ 2 / g). { unfold spread. rewrite <- Qm at 1. field. lra. }
    assert (0 <= (g - sqrt (a * b)) ^ 2 / g) by (apply Rmult_le_pos; [apply pow2_ge_0|left; now apply Rinv_0_lt_compat]). lra.
Qed.
Print Assumptions C170_best_slip.

(** Water under glass under air, at normal incidence. *)
Example C170_case : ray 1.33 0 1.5 0 1 0 /\ snell 1.33 0 1 0 /\ exists p p0 pm,
  fresnel_pass_frac 1.33 (Some 1.5) 1 [0] = Ok [p] /\ fresnel_pass_frac 1.33 None 1 [0] = Ok [p0] /\ fresnel_pass_frac 1.33 (Some (sqrt (1.33 * 1))) 1 [0] = Ok [pm].
Proof.
  split; [apply ray_normal; lra|]. split; [unfold snell; rewrite sin_0; ring|].
  do 3 eexists. rewrite !pass_frac_ok by (constructor; [pose proof PI_RGT_0; lra|constructor]). repeat split; reflexivity.
Qed.
