(** Proofs about the Fresnel coefficients (C01-C08). *)
From Coq Require Import Lra Lia Psatz.
From Verif Require Export M_model L_num.
Open Scope R_scope.

Ltac trig_close :=
  rewrite ?sin_0, ?sin_shift; lra.

Lemma abs_sq x : Rabs x ^ 2 = x ^ 2.
Proof. rewrite <- Rsqr_pow2, <- Rsqr_abs, Rsqr_pow2; reflexivity. Qed.

(** A quotient (a-b)/(a+b) of non-negative numbers squares to a fraction. *)
Lemma ratio_fraction a b :
  0 <= a -> 0 <= b -> 0 <= abs_ratio_sq (a - b) (a + b) <= 1.
Proof.
  intros Ha Hb; unfold abs_ratio_sq.
  destruct (Reqb (a + b) 0) eqn:E; [lra|].
  apply Reqb_false in E. rewrite abs_sq. split; [apply sq_nonneg_pow|].
  assert (Hab : 0 < a + b) by lra.
  replace (((a - b) / (a + b)) ^ 2) with (1 - (4 * a * b) / ((a + b) ^ 2)) by (field; lra).
  assert (0 <= (4 * a * b) / ((a + b) ^ 2)).
  { apply Rmult_le_pos; [nra|]. left; apply Rinv_0_lt_compat; nra. }
  lra.
Qed.

Lemma ratio_lt1 a b :
  0 < a -> 0 < b -> abs_ratio_sq (a - b) (a + b) < 1.
Proof.
  intros Ha Hb; unfold abs_ratio_sq.
  destruct (Reqb (a + b) 0) eqn:E; [apply Reqb_true in E; lra|].
  rewrite abs_sq.
  replace (((a - b) / (a + b)) ^ 2) with (1 - (4 * a * b) / ((a + b) ^ 2)) by (field; lra).
  assert (0 < (4 * a * b) / ((a + b) ^ 2)).
  { apply Rmult_lt_0_compat; [nra|]. apply Rinv_0_lt_compat; nra. }
  lra.
Qed.

Definition right_angle_range (t : R) : Prop := 0 <= t <= PI / 2.

Lemma cos_nonneg_range t : - (PI / 2) <= t <= PI / 2 -> 0 <= cos t.
Proof. intros; apply cos_ge_0; lra. Qed.

Lemma fresnel1_fraction n1 n2 t :
  0 < n1 -> 0 < n2 -> - (PI / 2) <= t <= PI / 2 ->
  fraction (fst (fresnel_refl1 n1 n2 t)) /\ fraction (snd (fresnel_refl1 n1 n2 t)).
Proof.
  intros H1 H2 Ht; unfold fresnel_refl1, fraction.
  destruct (Rltb (n2 / n1) 1 && Rleb (asin (n2 / n1)) t); cbn; [lra|].
  assert (Hc : 0 <= cos t) by (apply cos_nonneg_range; lra).
  assert (Hr := sqrt_pos (Rabs (n2 ^ 2 - (n1 * sin t) ^ 2))).
  cbn in Hr. split; apply ratio_fraction; try nra.
  all: apply Rmult_le_pos; nra.
Qed.

Lemma existsb_none ts :
  Forall right_angle_range ts -> existsb (fun t => Rltb (PI / 2) t) ts = false.
Proof.
  induction 1 as [|t ts Ht _ IH]; cbn; [reflexivity|].
  rewrite IH, orb_false_r. apply Rltb_false. destruct Ht; lra.
Qed.

Lemma fresnel_fractions n1 n2 ts :
  0 < n1 -> 0 < n2 -> Forall (fun t => 0 <= t <= PI / 2) ts ->
  exists rp rs, fresnel_reflection n1 n2 ts = Ok (rp, rs)
    /\ length rp = length ts /\ length rs = length ts
    /\ Forall fraction rp /\ Forall fraction rs.
Proof.
  intros H1 H2 Hts. unfold fresnel_reflection.
  rewrite existsb_none by exact Hts.
  eexists; eexists; split; [reflexivity|].
  rewrite !map_length. split; [reflexivity|]. split; [reflexivity|].
  rewrite !Forall_map. split; eapply Forall_impl; try exact Hts; cbn; intros t Ht;
    apply fresnel1_fraction; lra.
Qed.

(** C02 *)
Lemma fresnel_sum_one n1 n2 ts :
  match fresnel_reflection n1 n2 ts, fresnel_transmission n1 n2 ts with
  | Ok (rp, rs), Ok (tp, ts') =>
      length tp = length rp /\ length ts' = length rs
      /\ map2 Rplus rp tp = repeat 1 (length rp)
      /\ map2 Rplus rs ts' = repeat 1 (length rs)
  | Err e, Err e' => e = e'
  | _, _ => False
  end.
Proof.
  unfold fresnel_transmission.
  destruct (fresnel_reflection n1 n2 ts) as [[rp rs]|e]; cbn; [|reflexivity].
  rewrite !map_length. split; [reflexivity|]. split; [reflexivity|].
  assert (G : forall l, map2 Rplus l (map (fun x => 1 - x) l) = repeat 1 (length l)).
  { induction l as [|x l IH]; cbn; [reflexivity|]. rewrite IH. f_equal; lra. }
  split; apply G.
Qed.

(** C03 *)
Lemma fresnel_error_iff n1 n2 ts :
  fresnel_reflection n1 n2 ts = Err ValueError <-> Exists (fun t => PI / 2 < t) ts.
Proof.
  unfold fresnel_reflection.
  destruct (existsb (fun t => Rltb (PI / 2) t) ts) eqn:E; split; intros H; try discriminate; auto.
  - apply existsb_exists in E; destruct E as [t [Ht HE]].
    apply Exists_exists; exists t; split; auto. apply Rltb_true; auto.
  - exfalso. apply Exists_exists in H; destruct H as [t [Ht Hlt]].
    assert (existsb (fun t => Rltb (PI / 2) t) ts = true).
    { apply existsb_exists; exists t; split; auto. apply Rltb_true; auto. }
    congruence.
Qed.

Lemma fresnel_ok_otherwise n1 n2 ts :
  Forall (fun t => t <= PI / 2) ts ->
  exists rp rs, fresnel_reflection n1 n2 ts = Ok (rp, rs)
    /\ length rp = length ts /\ length rs = length ts.
Proof.
  intros H. unfold fresnel_reflection.
  replace (existsb (fun t => Rltb (PI / 2) t) ts) with false.
  - eexists; eexists; split; [reflexivity|]. rewrite !map_length; auto.
  - symmetry. induction H as [|t ts Ht _ IH]; cbn; [reflexivity|].
    rewrite IH, orb_false_r; apply Rltb_false; exact Ht.
Qed.

(** Not total reflection when a refracted ray exists. *)
Lemma not_tir n1 n2 t :
  0 < n1 -> 0 < n2 -> 0 <= t <= PI / 2 -> n1 * sin t < n2 ->
  Rltb (n2 / n1) 1 && Rleb (asin (n2 / n1)) t = false.
Proof.
  intros H1 H2 Ht Hs.
  destruct (Rltb (n2 / n1) 1) eqn:E; [|reflexivity]. cbn.
  apply Rltb_true in E. apply Rleb_false.
  assert (Hm : 0 < n2 / n1) by (apply Rdiv_lt_0_compat; lra).
  assert (Hst : sin t < n2 / n1).
  { apply Rmult_lt_reg_l with n1; [lra|].
    replace (n1 * (n2 / n1)) with n2 by (field; lra). lra. }
  rewrite <- (asin_sin t) by lra.
  apply asin_increasing; try lra.
  pose proof (SIN_bound t); lra.
Qed.

Lemma root_snell n1 n2 t1 t2 :
  0 < n2 -> 0 <= t2 <= PI / 2 -> n1 * sin t1 = n2 * sin t2 ->
  sqrt (Rabs (n2 ^ 2 - (n1 * sin t1) ^ 2)) = n2 * cos t2.
Proof.
  intros H2 Ht Hs. rewrite Hs.
  assert (Hc : 0 <= cos t2) by (apply cos_ge_0; lra).
  replace (n2 ^ 2 - (n2 * sin t2) ^ 2) with (Rsqr (n2 * cos t2)).
  - rewrite Rabs_right by (apply Rle_ge, Rle_0_sqr).
    apply sqrt_Rsqr. nra.
  - pose proof (sin2_cos2 t2) as E. unfold Rsqr in *. 
    replace (n2 ^ 2 - (n2 * sin t2) ^ 2) with (n2 * n2 * (1 - sin t2 * sin t2)) by ring.
    replace (1 - sin t2 * sin t2) with (cos t2 * cos t2) by lra. ring.
Qed.

(** C04 *)
Lemma fresnel1_textbook n1 n2 t1 t2 :
  0 < n1 -> 0 < n2 -> 0 <= t1 < PI / 2 -> 0 <= t2 < PI / 2 -> snell n1 t1 n2 t2 ->
  fresnel_refl1 n1 n2 t1 = (textbook_Rp n1 t1 n2 t2, textbook_Rs n1 t1 n2 t2).
Proof.
  intros H1 H2 Ht1 Ht2 Hs. unfold snell in Hs.
  assert (Hc1 : 0 < cos t1) by (apply cos_gt_0; lra).
  assert (Hc2 : 0 < cos t2) by (apply cos_gt_0; lra).
  assert (Hlt : n1 * sin t1 < n2).
  { rewrite Hs. assert (sin t2 < 1).
    { rewrite <- sin_PI2. apply sin_increasing_1; lra. } nra. }
  unfold fresnel_refl1. rewrite not_tir by (auto; lra).
  rewrite (root_snell n1 n2 t1 t2) by (auto; lra).
  unfold abs_ratio_sq, textbook_Rp, textbook_Rs.
  assert (P1 : 0 < n1 * cos t2) by nra. assert (P2 : 0 < n2 * cos t1) by nra.
  assert (P3 : 0 < n1 * cos t1) by nra. assert (P4 : 0 < n2 * cos t2) by nra.
  replace (n1 * (n2 * cos t2) + n2 ^ 2 * cos t1)
    with (n2 * (n1 * cos t2 + n2 * cos t1)) by ring.
  assert (P5 : 0 < n2 * (n1 * cos t2 + n2 * cos t1)) by (apply Rmult_lt_0_compat; lra).
  replace (Reqb (n2 * (n1 * cos t2 + n2 * cos t1)) 0) with false
    by (symmetry; apply Reqb_false; lra).
  replace (Reqb (n1 * cos t1 + n2 * cos t2) 0) with false
    by (symmetry; apply Reqb_false; lra).
  rewrite !abs_sq. f_equal.
  f_equal. field. split; lra.
Qed.

Lemma fresnel_textbook n1 n2 (ts : list (R * R)) :
  0 < n1 -> 0 < n2 ->
  Forall (fun p => 0 <= fst p < PI / 2 /\ 0 <= snd p < PI / 2
                   /\ snell n1 (fst p) n2 (snd p)) ts ->
  fresnel_reflection n1 n2 (map fst ts)
  = Ok (map (fun p => textbook_Rp n1 (fst p) n2 (snd p)) ts,
        map (fun p => textbook_Rs n1 (fst p) n2 (snd p)) ts).
Proof.
  intros H1 H2 H. unfold fresnel_reflection.
  rewrite existsb_none.
  - rewrite !map_map. f_equal. f_equal; apply map_ext_in; intros p Hp;
    rewrite Forall_forall in H; destruct (H p Hp) as [Ha [Hb Hs]];
    rewrite (fresnel1_textbook n1 n2 (fst p) (snd p)); auto.
  - apply Forall_map. eapply Forall_impl; [|exact H]. cbn.
    intros p [Ha _]; unfold right_angle_range; lra.
Qed.

(** The refracted angle exists below the critical angle. *)
Lemma snell_exists n1 n2 t1 :
  0 < n1 -> 0 < n2 -> 0 <= t1 < PI / 2 -> n1 * sin t1 < n2 ->
  exists t2, 0 <= t2 < PI / 2 /\ snell n1 t1 n2 t2.
Proof.
  intros H1 H2 Ht Hs.
  assert (Hsin : 0 <= sin t1) by (apply sin_ge_0; lra).
  set (x := n1 * sin t1 / n2).
  assert (Hx0 : 0 <= x) by (apply Rmult_le_pos; [nra|left; apply Rinv_0_lt_compat; lra]).
  assert (Hx1 : x < 1).
  { apply Rmult_lt_reg_l with n2; [lra|]. unfold x. replace (n2 * (n1 * sin t1 / n2)) with (n1 * sin t1) by (field; lra). lra. }
  exists (asin x). split; [split|].
  - rewrite <- asin_0. destruct (Rle_lt_or_eq_dec 0 x Hx0) as [Hlt|Heq].
    + left; apply asin_increasing; lra.
    + right; rewrite <- Heq; reflexivity.
  - rewrite <- asin_1. apply asin_increasing; lra.
  - unfold snell. rewrite sin_asin by lra. unfold x; field; lra.
Qed.

(** C05 *)
Lemma fresnel_tir n1 n2 t :
  0 < n2 < n1 -> asin (n2 / n1) <= t <= PI / 2 ->
  fresnel_reflection n1 n2 [t] = Ok ([1], [1]).
Proof.
  intros Hn Ht. unfold fresnel_reflection. cbn.
  replace (Rltb (PI / 2) t) with false by (symmetry; apply Rltb_false; lra). cbn.
  unfold fresnel_refl1.
  replace (Rltb (n2 / n1) 1) with true.
  - replace (Rleb (asin (n2 / n1)) t) with true by (symmetry; apply Rleb_true; lra).
    reflexivity.
  - symmetry; apply Rltb_true. apply Rmult_lt_reg_l with n1; [lra|].
    replace (n1 * (n2 / n1)) with n2 by (field; lra). lra.
Qed.

Lemma below_critical n1 n2 t :
  0 < n1 -> 0 < n2 -> 0 <= t < PI / 2 ->
  (n1 <= n2 \/ (n2 < n1 /\ t < asin (n2 / n1))) -> n1 * sin t < n2.
Proof.
  intros H1 H2 Ht [Hle|[Hlt Hc]].
  - assert (sin t < 1) by (rewrite <- sin_PI2; apply sin_increasing_1; lra). nra.
  - assert (Hm : 0 < n2 / n1 < 1).
    { split; [apply Rdiv_lt_0_compat; lra|]. apply Rmult_lt_reg_l with n1; [lra|].
      replace (n1 * (n2 / n1)) with n2 by (field; lra). lra. }
    assert (sin t < n2 / n1).
    { rewrite <- (sin_asin (n2 / n1)) by lra.
      pose proof (asin_bound (n2 / n1)). apply sin_increasing_1; lra. }
    apply Rmult_lt_compat_l with (r := n1) in H; [|lra].
    replace (n1 * (n2 / n1)) with n2 in H by (field; lra). exact H.
Qed.

Lemma fresnel_not_total n1 n2 t :
  0 < n1 -> 0 < n2 -> 0 <= t < PI / 2 ->
  (n1 <= n2 \/ (n2 < n1 /\ t < asin (n2 / n1))) ->
  exists rp rs, fresnel_reflection n1 n2 [t] = Ok ([rp], [rs]) /\ rp < 1 /\ rs < 1.
Proof.
  intros H1 H2 Ht Hcrit.
  pose proof (below_critical n1 n2 t H1 H2 Ht Hcrit) as Hs.
  destruct (snell_exists n1 n2 t H1 H2 Ht Hs) as [t2 [Ht2 Hsn]].
  unfold fresnel_reflection. cbn.
  replace (Rltb (PI / 2) t) with false by (symmetry; apply Rltb_false; lra). cbn.
  eexists; eexists; split; [reflexivity|].
  unfold fresnel_refl1. rewrite not_tir by (auto; lra).
  rewrite (root_snell n1 n2 t t2) by (auto; lra).
  assert (Hc1 : 0 < cos t) by (apply cos_gt_0; lra).
  assert (Hc2 : 0 < cos t2) by (apply cos_gt_0; lra).
  unfold fst, snd.
  split; apply ratio_lt1; repeat apply Rmult_lt_0_compat; lra.
Qed.

(** C06 *)
Lemma fresnel_reciprocity n1 n2 t1 t2 :
  0 < n1 -> 0 < n2 -> 0 <= t1 < PI / 2 -> 0 <= t2 < PI / 2 -> snell n1 t1 n2 t2 ->
  fresnel_reflection n1 n2 [t1] = fresnel_reflection n2 n1 [t2].
Proof.
  intros H1 H2 Ht1 Ht2 Hs.
  pose proof (fresnel_textbook n1 n2 [(t1, t2)] H1 H2) as E1.
  pose proof (fresnel_textbook n2 n1 [(t2, t1)] H2 H1) as E2.
  cbn in E1, E2. rewrite E1, E2.
  - unfold textbook_Rp, textbook_Rs.
    assert (Hc1 : 0 < cos t1) by (apply cos_gt_0; lra).
    assert (Hc2 : 0 < cos t2) by (apply cos_gt_0; lra).
    assert (0 < n1 * cos t1) by nra. assert (0 < n2 * cos t1) by nra.
    assert (0 < n1 * cos t2) by nra. assert (0 < n2 * cos t2) by nra.
    do 3 f_equal; field; lra.
  - constructor; [cbn [fst snd]; unfold snell in *; repeat split; try lra; trig_close | constructor].
  - constructor; [cbn [fst snd]; unfold snell in *; repeat split; try lra; trig_close | constructor].
Qed.

(** C07 *)
Lemma fresnel_normal n1 n2 :
  0 < n1 -> 0 < n2 ->
  fresnel_reflection n1 n2 [0] = Ok ([((n1 - n2) / (n1 + n2)) ^ 2], [((n1 - n2) / (n1 + n2)) ^ 2]).
Proof.
  intros H1 H2. pose proof PI_RGT_0 as Hpi.
  pose proof (fresnel_textbook n1 n2 [(0, 0)] H1 H2) as E. cbn in E. rewrite E.
  - unfold textbook_Rp, textbook_Rs. rewrite cos_0.
    do 3 f_equal; field; lra.
  - constructor; [cbn [fst snd]; unfold snell in *; repeat split; try lra; trig_close | constructor].
Qed.

Lemma fresnel_no_contrast n t :
  0 < n -> 0 <= t < PI / 2 -> fresnel_reflection n n [t] = Ok ([0], [0]).
Proof.
  intros Hn Ht.
  pose proof (fresnel_textbook n n [(t, t)] Hn Hn) as E. cbn in E. rewrite E.
  - unfold textbook_Rp, textbook_Rs.
    assert (Hc : 0 < cos t) by (apply cos_gt_0; lra). assert (0 < n * cos t) by nra.
    do 3 f_equal; field; lra.
  - constructor; [cbn [fst snd]; unfold snell in *; repeat split; try lra; trig_close | constructor].
Qed.

Lemma fresnel_brewster n1 n2 :
  0 < n1 -> 0 < n2 ->
  exists rs, fresnel_reflection n1 n2 [atan (n2 / n1)] = Ok ([0], [rs]).
Proof.
  intros H1 H2.
  pose proof (atan_bound (n2 / n1)) as Hb.
  assert (Hp : 0 < n2 / n1) by (apply Rdiv_lt_0_compat; lra).
  assert (Ha : 0 < atan (n2 / n1)) by (rewrite <- atan_0; apply atan_increasing; lra).
  set (t := atan (n2 / n1)) in *.
  assert (Hc : 0 < cos t) by (apply cos_gt_0; lra).
  assert (Htan : n1 * sin t = n2 * cos t).
  { assert (E : tan t = n2 / n1) by apply tan_atan. unfold tan in E.
    apply (f_equal (fun x => x * n1 * cos t)) in E.
    replace (sin t / cos t * n1 * cos t) with (n1 * sin t) in E by (field; lra).
    replace (n2 / n1 * n1 * cos t) with (n2 * cos t) in E by (field; lra). exact E. }
  exists (textbook_Rs n1 t n2 (PI / 2 - t)).
  pose proof (fresnel_textbook n1 n2 [(t, PI / 2 - t)] H1 H2) as E. cbn in E. rewrite E.
  - f_equal. f_equal. f_equal. unfold textbook_Rp.
    rewrite cos_shift. rewrite Htan.
    replace (n2 * cos t - n2 * cos t) with 0 by ring. unfold Rdiv; ring.
  - constructor; [cbn [fst snd]; unfold snell in *; repeat split; try lra; trig_close | constructor].
Qed.

(** C08 *)
Lemma fresnel_even_partial n1 n2 t :
  0 < n1 -> 0 < n2 -> 0 <= t < PI / 2 ->
  (n1 <= n2 \/ (n2 < n1 /\ t < asin (n2 / n1))) ->
  fresnel_reflection n1 n2 [- t] = fresnel_reflection n1 n2 [t].
Proof.
  intros H1 H2 Ht Hcrit.
  pose proof (below_critical n1 n2 t H1 H2 Ht Hcrit) as Hs.
  pose proof (not_tir n1 n2 t H1 H2) as Hn.
  unfold fresnel_reflection; cbn.
  replace (Rltb (PI / 2) t) with false by (symmetry; apply Rltb_false; lra).
  replace (Rltb (PI / 2) (- t)) with false by (symmetry; apply Rltb_false; lra).
  cbn. unfold fresnel_refl1. rewrite Hn by lra.
  replace (Rltb (n2 / n1) 1 && Rleb (asin (n2 / n1)) (- t)) with false.
  - rewrite sin_neg, cos_neg.
    replace ((n1 * - sin t) ^ 2) with ((n1 * sin t) ^ 2) by ring. reflexivity.
  - symmetry. apply andb_false_iff. right. apply Rleb_false.
    assert (Hp : 0 < n2 / n1) by (apply Rdiv_lt_0_compat; lra).
    destruct Hcrit as [Hle|[Hlt Hc]]; [|lra].
    destruct (Rle_lt_dec 1 (n2 / n1)) as [Hge|Hlt].
    + assert (asin (n2 / n1) = PI / 2).
      { unfold asin. destruct (Rle_dec (n2 / n1) (-1)); [lra|]. destruct (Rle_dec 1 (n2 / n1)); [reflexivity|lra]. }
      lra.
    + exfalso. apply Rmult_lt_compat_l with (r := n1) in Hlt; [|lra].
      replace (n1 * (n2 / n1)) with n2 in Hlt by (field; lra). lra.
Qed.

Lemma fresnel_even_refuted_l :
  exists n1 n2 t, 0 < n1 /\ 0 < n2 /\ 0 <= t <= PI / 2 /\
  fresnel_reflection n1 n2 [- t] <> fresnel_reflection n1 n2 [t].
Proof.
  exists 2, 1, (PI / 4). pose proof PI_RGT_0 as Hpi.
  split; [lra|]; split; [lra|]; split; [lra|].
  assert (Hs2 : 0 < sqrt 2) by (apply sqrt_lt_R0; lra).
  assert (Hsq : sqrt 2 * sqrt 2 = 2) by (apply sqrt_sqrt; lra).
  assert (Hinv : 1 / sqrt 2 = sqrt 2 / 2).
  { apply Rmult_eq_reg_l with (sqrt 2); [|lra].
    replace (sqrt 2 * (1 / sqrt 2)) with 1 by (field; lra). lra. }
  assert (Hsin : sin (PI / 4) = sqrt 2 / 2) by (rewrite sin_PI4; exact Hinv).
  assert (Hcos : cos (PI / 4) = sqrt 2 / 2) by (rewrite cos_PI4; exact Hinv).
  rewrite (fresnel_tir 2 1 (PI / 4)).
  2: lra.
  2:{ split; [|lra]. replace (1 / 2) with (sin (PI / 6)) by (rewrite sin_PI6; reflexivity).
      rewrite asin_sin; lra. }
  unfold fresnel_reflection; cbn.
  replace (Rltb (PI / 2) (- (PI / 4))) with false by (symmetry; apply Rltb_false; lra).
  cbn. unfold fresnel_refl1.
  replace (Rleb (asin (1 / 2)) (- (PI / 4))) with false.
  2:{ symmetry; apply Rleb_false.
      replace (1 / 2) with (sin (PI / 6)) by (rewrite sin_PI6; reflexivity).
      rewrite asin_sin; lra. }
  rewrite andb_false_r. intros E. injection E as _ E. revert E. cbn [snd].
  rewrite sin_neg, cos_neg, Hsin, Hcos.
  match goal with |- context [Rabs ?x] => replace x with (- (1)) by nra end.
  replace (Rabs (- (1))) with 1 by (unfold Rabs; destruct (Rcase_abs (- (1))); lra). rewrite sqrt_1. intros E.
  assert (G : abs_ratio_sq (2 * (sqrt 2 / 2) - 1) (2 * (sqrt 2 / 2) + 1) < 1) by (apply ratio_lt1; lra).
  lra.
Qed.
