(** C171: the shape of Fresnel's curves. *)
From Coq Require Import Lra Lia Psatz Reals List.
From Verif Require Import Num Spec M_model L_num L_fresnel.
Import ListNotations.
Open Scope R_scope.

(** ** The two curves in X = n1 cos t1 and Y = n2 cos t2 *)
Lemma fall_s (X Y X' Y' D : R) : 0 < X' -> X' <= X -> 0 < Y -> 0 < Y' -> Y ^ 2 = X ^ 2 + D -> Y' ^ 2 = X' ^ 2 + D ->
  ((X - Y) / (X + Y)) ^ 2 <= ((X' - Y') / (X' + Y')) ^ 2.
Proof.
  intros H1 H2 H3 H4 E E'.
  assert (Q : forall x y, 0 < x -> 0 < y -> y ^ 2 = x ^ 2 + D -> ((x - y) / (x + y)) ^ 2 = D ^ 2 / (x + y) ^ 4).
  { intros x y Hx Hy Exy. replace ((x - y) / (x + y)) with (- D / (x + y) ^ 2) by (replace D with ((y - x) * (x + y)) by (ring_simplify; lra); field; lra). field. lra. }
  rewrite (Q X Y), (Q X' Y') by lra. apply Rmult_le_compat_l; [apply pow2_ge_0|]. apply Rinv_le_contravar; [apply pow_lt; lra|]. apply pow_incr.
  assert (Y' <= Y) by nra. lra.
Qed.
Lemma ratio_mono (X Y X' Y' D : R) : 0 < X' -> X' <= X -> 0 < Y -> 0 < Y' -> Y ^ 2 = X ^ 2 + D -> Y' ^ 2 = X' ^ 2 + D ->
  (0 <= D -> X' * Y <= X * Y') /\ (D <= 0 -> X * Y' <= X' * Y).
Proof.
  intros H1 H2 H3 H4 E E'. assert (P1 : 0 < X' * Y) by (now apply Rmult_lt_0_compat). assert (P2 : 0 < X * Y') by (apply Rmult_lt_0_compat; lra).
  assert (G : (X * Y') ^ 2 - (X' * Y) ^ 2 = D * (X ^ 2 - X' ^ 2)) by (rewrite !Rpow_mult_distr, E, E'; ring).
  assert (S : 0 <= X ^ 2 - X' ^ 2) by nra. split; intros HD; apply Rnot_lt_le; intros L; nra.
Qed.
Lemma between_p (a b a' b' : R) : 0 < a -> 0 < b -> 0 < a' -> 0 < b' -> (a <= b /\ b * a' <= b' * a \/ b <= a /\ a * b' <= a' * b) ->
  ((a - b) / (a + b)) ^ 2 <= ((a' - b') / (a' + b')) ^ 2.
Proof.
  intros H1 H2 H3 H4 H. rewrite <- (pow2_abs ((a - b) / (a + b))), <- (pow2_abs ((a' - b') / (a' + b'))). apply pow_incr. split; [apply Rabs_pos|].
  assert (I1 : 0 < / (a + b)) by (apply Rinv_0_lt_compat; lra). assert (I2 : 0 < / (a' + b')) by (apply Rinv_0_lt_compat; lra).
  assert (G : forall x y, 0 <= x -> x * (a' + b') <= y * (a + b) -> x / (a + b) <= y / (a' + b')).
  { intros x y Hx Hxy. apply (Rmult_le_reg_r (a + b)); [lra|]. apply (Rmult_le_reg_r (a' + b')); [lra|]. replace (x / (a + b) * (a + b) * (a' + b')) with (x * (a' + b')) by (field; lra).
    replace (y / (a' + b') * (a + b) * (a' + b')) with (y * (a + b)) by (field; lra). exact Hxy. }
  unfold Rdiv. rewrite !Rabs_mult, (Rabs_pos_eq (/ (a + b))), (Rabs_pos_eq (/ (a' + b'))) by lra.
  destruct H as [[L M]|[L M]].
  - rewrite (Rabs_left1 (a - b)) by lra. apply Rle_trans with ((b' - a') / (a' + b')); [apply G; nra|]. apply Rmult_le_compat_r; [lra|]. rewrite Rabs_minus_sym. apply Rle_abs.
  - rewrite (Rabs_pos_eq (a - b)) by lra. apply Rle_trans with ((a' - b') / (a' + b')); [apply G; nra|]. apply Rmult_le_compat_r; [lra|]. apply Rle_abs.
Qed.

(** ** Angles that are totally reflected, or grazing *)
Section Curve.
Variables n1 n2 : R.
Hypothesis (H1 : 0 < n1) (H2 : 0 < n2).
Definition lost (t : R) : Prop := t = PI / 2 \/ n2 < n1 /\ asin (n2 / n1) <= t.
Lemma lost_total t : 0 <= t <= PI / 2 -> lost t -> fresnel_refl1 n1 n2 t = (1, 1).
Proof.
  intros Ht H. unfold fresnel_refl1. destruct (Rltb (n2 / n1) 1 && Rleb (asin (n2 / n1)) t) eqn:E; [reflexivity|].
  assert (R1 : n2 < n1 -> n2 / n1 < 1) by (intros L; apply (Rmult_lt_reg_r n1); [exact H1|]; unfold Rdiv; rewrite Rmult_assoc, Rinv_l by lra; lra).
  assert (T : ~ (n2 < n1 /\ asin (n2 / n1) <= t)).
  { intros [L M]. rewrite (proj2 (Rltb_true _ _) (R1 L)), (proj2 (Rleb_true _ _) M) in E. discriminate E. }
  destruct H as [->|H]; [|contradiction].
  assert (N : n1 <= n2). { apply Rnot_lt_le. intros L. apply T. split; [exact L|]. pose proof (asin_bound (n2 / n1)). lra. }
  rewrite sin_PI2, cos_PI2, Rmult_1_r. assert (S0 : 0 <= n2 ^ 2 - n1 ^ 2) by nra. rewrite (Rabs_pos_eq _ S0). rewrite !Rmult_0_r, Rminus_0_r, Rplus_0_r, Rplus_0_l.
  destruct (Rle_lt_or_eq_dec _ _ S0) as [L|Z].
  - pose proof (sqrt_lt_R0 _ L) as S1. set (r := sqrt (n2 ^ 2 - n1 ^ 2)) in *. assert (0 < n1 * r) by (now apply Rmult_lt_0_compat). unfold abs_ratio_sq.
    rewrite ?(proj2 (Reqb_false _ 0)) by lra. f_equal.
    + replace (n1 * r / (n1 * r)) with 1 by (field; lra). rewrite ?Rabs_R1. ring.
    + replace ((0 - r) / r) with (-1) by (field; lra). rewrite ?Rabs_Ropp, ?(Rabs_left (-1)) by lra. ring.
  - rewrite <- Z, sqrt_0. unfold abs_ratio_sq. rewrite ?Rmult_0_r, ?Rminus_0_r. rewrite ?(proj2 (Reqb_true 0 0) eq_refl). reflexivity.
Qed.
Lemma lost_up t u : lost t -> t <= u <= PI / 2 -> lost u.
Proof. unfold lost. intros [->|[L M]] Hu; [left; lra|right; split; [exact L|lra]]. Qed.
Lemma kept t : 0 <= t <= PI / 2 -> ~ lost t -> t < PI / 2 /\ n1 * sin t < n2.
Proof.
  intros Ht H. pose proof PI_RGT_0. unfold lost in H. split; [destruct (Rle_lt_or_eq_dec _ _ (proj2 Ht)) as [L|L]; [exact L|exfalso; apply H; now left]|].
  apply Rnot_le_lt. intros L. assert (T : t < PI / 2) by (destruct (Rle_lt_or_eq_dec _ _ (proj2 Ht)) as [M|M]; [exact M|exfalso; apply H; now left]).
  assert (S1 : sin t < 1) by (rewrite <- sin_PI2; apply sin_increasing_1; lra).
  apply H. right. assert (N : n2 < n1) by nra. split; [exact N|]. rewrite <- (asin_sin t) by lra.
  assert (Q : n2 / n1 <= sin t) by (apply (Rmult_le_reg_r n1); [exact H1|]; unfold Rdiv; rewrite Rmult_assoc, Rinv_l by lra; lra).
  assert (Q0 : 0 < n2 / n1) by (now apply Rdiv_lt_0_compat).
  destruct (Rle_lt_or_eq_dec _ _ Q) as [K|K]; [left; apply asin_increasing; lra|rewrite K; lra].
Qed.

(** ** The values below *)
Let D := n2 ^ 2 - n1 ^ 2.
Let X t := n1 * cos t.
Let Y t := sqrt (X t ^ 2 + D).
Lemma kept_value t : 0 <= t < PI / 2 -> n1 * sin t < n2 ->
  0 < X t <= n1 /\ 0 < Y t /\ Y t ^ 2 = X t ^ 2 + D
  /\ fresnel_refl1 n1 n2 t = (((n1 ^ 2 * Y t - n2 ^ 2 * X t) / (n1 ^ 2 * Y t + n2 ^ 2 * X t)) ^ 2, ((X t - Y t) / (X t + Y t)) ^ 2).
Proof.
  intros Ht Hs. destruct (snell_exists n1 n2 t H1 H2 Ht Hs) as (t2 & Ht2 & Sn).
  assert (C1 : 0 < cos t) by (apply cos_gt_0; lra). assert (C2 : 0 < cos t2) by (apply cos_gt_0; lra). pose proof (COS_bound t) as CB.
  assert (HX : 0 < X t) by (now apply Rmult_lt_0_compat).
  assert (EY : X t ^ 2 + D = (n2 * cos t2) ^ 2).
  { unfold X, D. unfold snell in Sn. pose proof (sin2_cos2 t) as P1. pose proof (sin2_cos2 t2) as P2. unfold Rsqr in P1, P2.
    assert (Q : (n1 * sin t) ^ 2 = (n2 * sin t2) ^ 2) by (now rewrite Sn). nra. }
  assert (Y0 : Y t = n2 * cos t2) by (unfold Y; rewrite EY; apply sqrt_pow2; apply Rmult_le_pos; lra).
  split; [split; [exact HX|unfold X; nra]|]. split; [rewrite Y0; now apply Rmult_lt_0_compat|]. split; [now rewrite Y0, EY|].
  rewrite (fresnel1_textbook n1 n2 t t2 H1 H2 Ht Ht2 Sn). rewrite Y0. unfold textbook_Rp, textbook_Rs, X. f_equal. f_equal.
  assert (0 < n1 * cos t2) by (now apply Rmult_lt_0_compat). assert (0 < n2 * cos t) by (now apply Rmult_lt_0_compat).
  replace (n1 ^ 2 * (n2 * cos t2) - n2 ^ 2 * (n1 * cos t)) with (n1 * n2 * (n1 * cos t2 - n2 * cos t)) by ring.
  replace (n1 ^ 2 * (n2 * cos t2) + n2 ^ 2 * (n1 * cos t)) with (n1 * n2 * (n1 * cos t2 + n2 * cos t)) by ring. field. repeat split; try lra.
Qed.
Lemma brewster_point : let B := atan (n2 / n1) in 0 <= B < PI / 2 /\ n1 * sin B < n2 /\ n1 ^ 2 * Y B = n2 ^ 2 * X B.
Proof.
  intros B. assert (Q : 0 < n2 / n1) by (now apply Rdiv_lt_0_compat).
  assert (B0 : 0 <= B < PI / 2). { split; [unfold B; rewrite <- atan_0; left; now apply atan_increasing|apply atan_bound]. }
  assert (CB : 0 < cos B) by (apply cos_gt_0; lra).
  assert (TB : n1 * sin B = n2 * cos B). { assert (E : tan B = n2 / n1) by (apply tan_atan). unfold tan in E. apply (f_equal (fun v => v * (n1 * cos B))) in E.
    replace (sin B / cos B * (n1 * cos B)) with (n1 * sin B) in E by (field; lra). rewrite E. field. lra. }
  assert (C1 : cos B < 1). { assert (0 < sin B) by nra. pose proof (sin2_cos2 B) as P. unfold Rsqr in P. nra. }
  split; [exact B0|]. split; [rewrite TB; nra|].
  assert (EY : X B ^ 2 + D = (n2 * sin B) ^ 2).
  { unfold X, D. pose proof (sin2_cos2 B) as P. unfold Rsqr in P. assert (Z : (n1 * sin B) ^ 2 = (n2 * cos B) ^ 2) by (now rewrite TB). nra. }
  assert (S0 : 0 < sin B) by nra. unfold Y. rewrite EY, sqrt_pow2 by (apply Rmult_le_pos; lra). unfold X.
  replace (n1 ^ 2 * (n2 * sin B)) with (n1 * n2 * (n1 * sin B)) by ring. rewrite TB. ring.
Qed.
Lemma X_falls t u : 0 <= t <= u -> u < PI / 2 -> X u <= X t.
Proof. intros Ht Hu. pose proof PI_RGT_0. unfold X. apply Rmult_le_compat_l; [lra|]. apply cos_decr_1; lra. Qed.

Lemma p_below_s t : 0 <= t <= PI / 2 -> fst (fresnel_refl1 n1 n2 t) <= snd (fresnel_refl1 n1 n2 t).
Proof.
  intros Ht. destruct (Classical_Prop.classic (lost t)) as [L|L]; [rewrite lost_total by assumption; cbn; lra|]. destruct (kept t Ht L) as [T Sn].
  destruct (kept_value t ltac:(lra) Sn) as ((X0 & X1) & Y0 & EY & ->). cbn [fst snd]. set (x := X t) in *. set (y := Y t) in *.
  assert (P1 : 0 < n1 ^ 2) by (now apply pow_lt). assert (P2 : 0 < n2 ^ 2) by (now apply pow_lt).
  assert (XX : x ^ 2 <= n1 ^ 2) by (apply pow_incr; lra). assert (XY : 0 < x * y) by (now apply Rmult_lt_0_compat).
  assert (Fl : ((x - y) / (x + y)) ^ 2 = ((y - x) / (y + x)) ^ 2) by (field; lra).
  assert (E : n1 ^ 2 * y ^ 2 - n2 ^ 2 * x ^ 2 = D * (n1 ^ 2 - x ^ 2)) by (rewrite EY; unfold D; ring).
  assert (A0 : 0 < n1 ^ 2 * y) by (now apply Rmult_lt_0_compat). assert (B0 : 0 < n2 ^ 2 * x) by (now apply Rmult_lt_0_compat).
  assert (ED : D = n2 ^ 2 - n1 ^ 2) by reflexivity. set (N1 := n1 ^ 2) in *. set (N2 := n2 ^ 2) in *.
  destruct (Rle_lt_dec 0 D) as [HD|HD].
  - assert (W : 0 <= D * (N1 - x ^ 2)) by (apply Rmult_le_pos; lra). assert (DD : N1 * (x * y) <= N2 * (x * y)) by (apply Rmult_le_compat_r; lra).
    destruct (Rle_lt_dec (N1 * y) (N2 * x)) as [K|K].
    + apply between_p; try assumption. left. split; [exact K|]. nra.
    + rewrite Fl. apply between_p; try assumption. right. split; [lra|]. nra.
  - assert (W : D * (N1 - x ^ 2) <= 0) by nra. assert (DD : N2 * (x * y) <= N1 * (x * y)) by (apply Rmult_le_compat_r; lra).
    destruct (Rle_lt_dec (N1 * y) (N2 * x)) as [K|K].
    + rewrite Fl. apply between_p; try assumption. left. split; [exact K|]. nra.
    + apply between_p; try assumption. right. split; [lra|]. nra.
Qed.
Lemma s_grows t u : 0 <= t <= u -> u <= PI / 2 -> snd (fresnel_refl1 n1 n2 t) <= snd (fresnel_refl1 n1 n2 u).
Proof.
  intros Ht Hu. pose proof PI_RGT_0. destruct (Classical_Prop.classic (lost u)) as [L|L].
  - rewrite (lost_total u) by (assumption || lra). apply (fresnel1_fraction n1 n2 t H1 H2). lra.
  - assert (L' : ~ lost t) by (intros Q; apply L; apply (lost_up t); [exact Q|lra]).
    destruct (kept u ltac:(lra) L) as [T Sn]. destruct (kept t ltac:(lra) L') as [T' Sn'].
    destruct (kept_value u ltac:(lra) Sn) as ((X0 & X1) & Y0 & EY & ->). destruct (kept_value t ltac:(lra) Sn') as ((X0' & X1') & Y0' & EY' & ->). cbn [snd].
    apply (fall_s _ _ _ _ D); try assumption. now apply X_falls.
Qed.
(** Which side of Brewster's angle. *)
Lemma side t : 0 <= t < PI / 2 -> n1 * sin t < n2 ->
  (t <= atan (n2 / n1) -> (0 <= D -> n1 ^ 2 * Y t <= n2 ^ 2 * X t) /\ (D <= 0 -> n2 ^ 2 * X t <= n1 ^ 2 * Y t))
  /\ (atan (n2 / n1) <= t -> (0 <= D -> n2 ^ 2 * X t <= n1 ^ 2 * Y t) /\ (D <= 0 -> n1 ^ 2 * Y t <= n2 ^ 2 * X t)).
Proof.
  intros Ht Sn. destruct brewster_point as (B0 & B1 & B2). set (B := atan (n2 / n1)) in *.
  destruct (kept_value t Ht Sn) as ((X0 & _) & Y0 & EY & _). destruct (kept_value B B0 B1) as ((XB & _) & YB & EB & _).
  assert (P1 : 0 < n1 ^ 2) by (now apply pow_lt). assert (P2 : 0 < n2 ^ 2) by (now apply pow_lt).
  assert (G : forall p q r s, 0 < p -> 0 < q -> n1 ^ 2 * q = n2 ^ 2 * p -> p * s <= r * q -> n1 ^ 2 * s <= n2 ^ 2 * r).
  { intros p q r s Hp Hq Epq L. apply (Rmult_le_reg_r p); [exact Hp|]. replace (n2 ^ 2 * r * p) with (r * (n2 ^ 2 * p)) by ring. rewrite <- Epq. nra. }
  assert (G' : forall p q r s, 0 < p -> 0 < q -> n1 ^ 2 * q = n2 ^ 2 * p -> r * q <= p * s -> n2 ^ 2 * r <= n1 ^ 2 * s).
  { intros p q r s Hp Hq Epq L. apply (Rmult_le_reg_r p); [exact Hp|]. replace (n2 ^ 2 * r * p) with (r * (n2 ^ 2 * p)) by ring. rewrite <- Epq. nra. }
  split; intros L.
  - pose proof (X_falls t B ltac:(lra) ltac:(lra)) as XF. destruct (ratio_mono (X t) (Y t) (X B) (Y B) D XB XF Y0 YB EY EB) as [M1 M2].
    split; intros HD; [apply (G (X B) (Y B)); auto|apply (G' (X B) (Y B)); auto].
  - pose proof (X_falls B t ltac:(lra) ltac:(lra)) as XF. destruct (ratio_mono (X B) (Y B) (X t) (Y t) D X0 XF YB Y0 EB EY) as [M1 M2].
    split; intros HD; [apply (G' (X B) (Y B)); auto|apply (G (X B) (Y B)); auto].
Qed.
Lemma p_curve t u : 0 <= t <= u -> u <= PI / 2 ->
  (u <= atan (n2 / n1) -> fst (fresnel_refl1 n1 n2 u) <= fst (fresnel_refl1 n1 n2 t))
  /\ (atan (n2 / n1) <= t -> fst (fresnel_refl1 n1 n2 t) <= fst (fresnel_refl1 n1 n2 u)).
Proof.
  intros Ht Hu. pose proof PI_RGT_0. assert (P1 : 0 < n1 ^ 2) by (now apply pow_lt). assert (P2 : 0 < n2 ^ 2) by (now apply pow_lt).
  destruct (Classical_Prop.classic (lost u)) as [L|L].
  - split; intros LB.
    + exfalso. destruct brewster_point as (B0 & B1 & _). destruct (kept_value _ B0 B1) as (_ & _ & _ & EB). destruct (lost_up u (atan (n2 / n1)) L ltac:(lra)) as [Q|[Q1 Q2]]; [lra|].
      assert (E : fresnel_refl1 n1 n2 (atan (n2 / n1)) = (1, 1)) by (apply lost_total; [lra|right; auto]).
      assert (F : fst (fresnel_refl1 n1 n2 (atan (n2 / n1))) = 0).
      { rewrite EB. cbn [fst]. destruct brewster_point as (_ & _ & ->). unfold Rdiv. rewrite Rminus_diag_eq by reflexivity. ring. }
      rewrite E in F. cbn in F. lra.
    + rewrite (lost_total u) by (assumption || lra). apply (fresnel1_fraction n1 n2 t H1 H2). lra.
  - assert (L' : ~ lost t) by (intros Q; apply L; apply (lost_up t); [exact Q|lra]).
    destruct (kept u ltac:(lra) L) as [T Sn]. destruct (kept t ltac:(lra) L') as [T' Sn'].
    pose proof (side u ltac:(lra) Sn) as [SU1 SU2]. pose proof (side t ltac:(lra) Sn') as [ST1 ST2].
    destruct (kept_value u ltac:(lra) Sn) as ((X0 & X1) & Y0 & EY & ->). destruct (kept_value t ltac:(lra) Sn') as ((X0' & X1') & Y0' & EY' & ->). cbn [fst].
    destruct (ratio_mono (X t) (Y t) (X u) (Y u) D X0 (X_falls t u Ht T) Y0' Y0 EY' EY) as [M1 M2].
    assert (C : forall p q r s, p * q <= r * s -> n1 ^ 2 * q * (n2 ^ 2 * p) <= n1 ^ 2 * s * (n2 ^ 2 * r)).
    { intros p q r s Q. assert (PP : 0 < n1 ^ 2 * n2 ^ 2) by (now apply Rmult_lt_0_compat). apply (Rmult_le_compat_l (n1 ^ 2 * n2 ^ 2)) in Q; [|lra].
      replace (n1 ^ 2 * q * (n2 ^ 2 * p)) with (n1 ^ 2 * n2 ^ 2 * (p * q)) by ring. replace (n1 ^ 2 * s * (n2 ^ 2 * r)) with (n1 ^ 2 * n2 ^ 2 * (r * s)) by ring. exact Q. }
    split; intros LB; (apply between_p; try (now apply Rmult_lt_0_compat)).
    + destruct (SU1 LB) as [U1 U2]. destruct (Rle_lt_dec 0 D) as [HD|HD]; [left|right]; (split; [auto|]).
      * pose proof (C _ _ _ _ (M1 HD)) as Q. lra.
      * apply U2. lra.
      * pose proof (C _ _ _ _ (M2 ltac:(lra))) as Q. lra.
    + destruct (ST2 LB) as [U1 U2]. destruct (Rle_lt_dec 0 D) as [HD|HD]; [right|left]; (split; [auto|]).
      * pose proof (C _ _ _ _ (M1 HD)) as Q. lra.
      * apply U2. lra.
      * pose proof (C _ _ _ _ (M2 ltac:(lra))) as Q. lra.
Qed.
End Curve.

(** C171.  For all indices and all pairs of angles up to 90 degrees, totally
    reflected ones included: the s-polarised reflectance grows with the angle,
    the p-polarised one falls up to Brewster's angle and grows from there, and
    never exceeds the s-polarised one. *)
Theorem C171_shape : forall n1 n2 t u pt pu st su, 0 < n1 -> 0 < n2 -> 0 <= t <= u -> u <= PI / 2 ->
  fresnel_reflection n1 n2 [t; u] = Ok ([pt; pu], [st; su]) ->
  st <= su /\ pt <= st /\ pu <= su
  /\ (u <= atan (n2 / n1) -> pu <= pt) /\ (atan (n2 / n1) <= t -> pt <= pu).
Proof.
  intros n1 n2 t u pt pu st su H1 H2 Ht Hu E. unfold fresnel_reflection in E. destruct (existsb _ _); [discriminate E|]. cbn [map] in E. injection E as <- <- <- <-.
  split; [now apply s_grows|]. split; [apply p_below_s; assumption || lra|]. split; [apply p_below_s; assumption || lra|]. now apply p_curve.
Qed.
Print Assumptions C171_shape.

(** Less is transmitted, accordingly. *)
Theorem C171_transmission : forall n1 n2 t u pt pu st su, 0 < n1 -> 0 < n2 -> 0 <= t <= u -> u <= PI / 2 ->
  fresnel_transmission n1 n2 [t; u] = Ok ([pt; pu], [st; su]) ->
  su <= st /\ st <= pt /\ su <= pu
  /\ (u <= atan (n2 / n1) -> pt <= pu) /\ (atan (n2 / n1) <= t -> pu <= pt).
Proof.
  intros n1 n2 t u pt pu st su H1 H2 Ht Hu E. unfold fresnel_transmission in E. destruct (fresnel_reflection n1 n2 [t; u]) as [[a b]|] eqn:F; [|discriminate E].
  cbn [bind fst snd] in E. pose proof F as G. unfold fresnel_reflection in G. destruct (existsb _ _); [discriminate G|]. cbn [map] in G. injection G as <- <-. cbn [map] in E. injection E as <- <- <- <-.
  destruct (C171_shape n1 n2 t u _ _ _ _ H1 H2 Ht Hu F) as (A1 & A2 & A3 & A4 & A5). split; [lra|]. split; [lra|]. split; [lra|]. split; intros Q; [specialize (A4 Q)|specialize (A5 Q)]; lra.
Qed.
Print Assumptions C171_transmission.

(** From glass into air: 4 percent along the normal, everything at 60 degrees. *)
Example C171_case : exists pt st, fresnel_reflection 1.5 1 [0; PI / 3] = Ok ([pt; 1], [st; 1]) /\ pt = 0.04 /\ st = 0.04.
Proof.
  pose proof PI_RGT_0. exists (fst (fresnel_refl1 1.5 1 0)), (snd (fresnel_refl1 1.5 1 0)).
  pose proof (fresnel_normal 1.5 1 ltac:(lra) ltac:(lra)) as N. unfold fresnel_reflection in N. destruct (existsb _ [0]); [discriminate N|]. cbn [map] in N. injection N as N1 N2.
  assert (T : fresnel_refl1 1.5 1 (PI / 3) = (1, 1)).
  { apply lost_total; try lra. right. split; [lra|]. rewrite <- (asin_sin (PI / 3)) by lra. left.
    assert (1.5 < sqrt 3) by (rewrite <- (sqrt_pow2 1.5) by lra; apply sqrt_lt_1; lra). assert (sqrt 3 < 2) by (rewrite <- (sqrt_pow2 2) by lra; apply sqrt_lt_1; lra).
    rewrite sin_PI3. apply asin_increasing; lra. }
  split; [|split; [rewrite N1|rewrite N2]; lra]. unfold fresnel_reflection. cbn [existsb map]. rewrite !(proj2 (Rltb_false (PI / 2) _)) by lra. cbn [orb map]. rewrite T. reflexivity.
Qed.
