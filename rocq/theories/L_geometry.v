(** Geometry helpers of the detector (C37-C41, C43). *)
From Coq Require Import Lra Lia Psatz Nsatz.
From Verif Require Export L_weights L_init L_montecarlo.
Open Scope R_scope.

Definition nrm2 (v : vec) : R := dot v v.

Lemma magnitude_sq v : magnitude v ^ 2 = dot v v.
Proof.
  unfold magnitude. rewrite pow2_sqrt.
  - rewrite !pow2_abs. unfold dot. ring.
  - repeat apply Rplus_le_le_0_compat; apply sq_nonneg_pow.
Qed.
Lemma magnitude_nonneg v : 0 <= magnitude v.
Proof. apply sqrt_pos. Qed.

Lemma normalize1_some v u : normalize1 v = Some u ->
  0 < magnitude v /\ v = vscale (magnitude v) u /\ dot u u = 1.
Proof.
  unfold normalize1, div_vec. destruct (Reqb (magnitude v) 0) eqn:E; [discriminate|].
  apply Reqb_false in E. intros H; inversion H. clear H.
  pose proof (magnitude_nonneg v). assert (Hm : 0 < magnitude v) by lra.
  split; [exact Hm|]. split.
  - destruct v as [[x y] z]. unfold vscale. cbn [vx vy vz] in *. f_equal; [f_equal|]; field; lra.
  - pose proof (magnitude_sq v) as Hs. unfold dot in *. cbn [vx vy vz].
    set (m := magnitude v) in *.
    replace (vx v / m * (vx v / m) + vy v / m * (vy v / m) + vz v / m * (vz v / m))
      with ((vx v * vx v + vy v * vy v + vz v * vz v) / m ^ 2) by (field; lra).
    rewrite <- Hs. field. lra.
Qed.
Lemma normalize1_none v : normalize1 v = None -> dot v v = 0.
Proof.
  unfold normalize1, div_vec. destruct (Reqb (magnitude v) 0) eqn:E; [|discriminate].
  apply Reqb_true in E. intros _. rewrite <- magnitude_sq, E. ring.
Qed.

Lemma dot_zero_vec v : dot v v = 0 -> v = vzero.
Proof.
  destruct v as [[x y] z]. unfold dot, vzero; cbn. intros H.
  assert (x * x = 0 /\ y * y = 0 /\ z * z = 0) as (A & B & C) by nra.
  apply Rsqr_0_uniq in A; apply Rsqr_0_uniq in B; apply Rsqr_0_uniq in C. now subst.
Qed.

(* ------------------------------------------------------------------ *)
(** * Intersection with the sphere (C37) *)

(** The point [p0 + s k]. *)
Definition along (p0 k : vec) (s : R) : vec := vadd p0 (vscale s k).

Lemma along_dot p0 k s : dot k k = 1 ->
  dot (along p0 k s) (along p0 k s) = dot p0 p0 + 2 * s * dot k p0 + s ^ 2.
Proof.
  intros Hk. destruct p0 as [[a b] c], k as [[u v] w]. unfold along, vadd, vscale, dot in *. cbn in *.
  transitivity (a * a + b * b + c * c + 2 * s * (u * a + v * b + w * c) + s ^ 2 * (u * u + v * v + w * w)); [ring|].
  rewrite Hk. ring.
Qed.

(** From a point in the closed ball to a point outside it. *)
Lemma intersect_general p0 p1 r k :
  0 < r -> dot p0 p0 <= r ^ 2 -> r ^ 2 < dot p1 p1 ->
  normalize1 (vsub p1 p0) = Some k ->
  let disc := 4 * dot k p0 ^ 2 + 4 * (r ^ 2 - dot p0 p0) in
  let s := - dot k p0 + sqrt disc / 2 in
  0 <= disc
  /\ dot (along p0 k s) (along p0 k s) = r ^ 2
  /\ 0 <= s < magnitude (vsub p1 p0)
  /\ dot (along p0 k s) k = sqrt disc / 2
  /\ find_vec_sphere_intersect p0 p1 r = if Reqb disc 0 then vzero else along p0 k s.
Proof.
  intros Hr H0 H1 Hk disc s.
  destruct (normalize1_some _ _ Hk) as (Hm & Hd & Hu).
  set (m := magnitude (vsub p1 p0)) in *.
  assert (Hp1 : p1 = along p0 k m).
  { unfold along. rewrite <- Hd. destruct p1 as [[a b] c], p0 as [[x y] z]. unfold vadd, vsub; cbn.
    f_equal; [f_equal|]; ring. }
  assert (Hdisc : 0 <= disc) by (unfold disc; pose proof (sq_nonneg_pow (dot k p0)); lra).
  assert (Hsq : sqrt disc ^ 2 = disc) by (apply pow2_sqrt, Hdisc).
  pose proof (sqrt_pos disc) as Hsp.
  assert (Hon : dot (along p0 k s) (along p0 k s) = r ^ 2).
  { rewrite along_dot by exact Hu. unfold s.
    transitivity (dot p0 p0 - dot k p0 ^ 2 + sqrt disc ^ 2 / 4); [field|]. rewrite Hsq. unfold disc. field. }
  assert (Hs0 : 0 <= s).
  { unfold s. destruct (Rle_lt_dec 0 (sqrt disc - 2 * dot k p0)); [lra|].
    exfalso. assert (sqrt disc ^ 2 < (2 * dot k p0) ^ 2) by nra. rewrite Hsq in H. unfold disc in H. nra. }
  assert (Hsm : s < m).
  { destruct (Rlt_le_dec s m) as [|Hms]; [assumption|exfalso].
    (* between the two roots the point is inside *)
    rewrite Hp1, along_dot in H1 by exact Hu. rewrite along_dot in Hon by exact Hu.
    assert ((s - m) * (2 * dot k p0 + s + m) >= 0 -> False) by (intros; nra).
    apply H. destruct (Rle_lt_dec 0 (2 * dot k p0 + s + m)); [nra|].
    exfalso. assert (2 * dot k p0 + s < 0) by lra.
    assert (s * (2 * dot k p0 + s) <= 0) by nra. unfold s in *. nra. }
  split; [exact Hdisc|]. split; [exact Hon|]. split; [lra|]. split.
  { assert (dot (along p0 k s) k = dot k p0 + s).
    { destruct p0 as [[a b] c], k as [[u v] w]. unfold along, vadd, vscale, dot in *; cbn in *.
      transitivity (u * a + v * b + w * c + s * (u * u + v * v + w * w)); [ring|]. rewrite Hu. ring. }
    rewrite H. unfold s. ring. }
  unfold find_vec_sphere_intersect. rewrite Hk. cbv zeta.
  assert (Ha : vx k ^ 2 + vy k ^ 2 + vz k ^ 2 = 1).
  { rewrite <- Hu. unfold dot. ring. }
  rewrite Ha.
  assert (Hc : (2 * (vx k * vx p0 + vy k * vy p0 + vz k * vz p0)) ^ 2
     - 4 * 1 * (vx p0 ^ 2 + vy p0 ^ 2 + vz p0 ^ 2 - r ^ 2) = disc).
  { unfold disc, dot. ring. }
  rewrite Hc.
  replace (Rltb disc 0) with false by (symmetry; now apply Rltb_false).
  assert (Htp : (- (2 * (vx k * vx p0 + vy k * vy p0 + vz k * vz p0)) + sqrt disc) / (2 * 1) = s).
  { unfold s, dot. field. }
  set (s2 := - dot k p0 - sqrt disc / 2).
  assert (Htm : (- (2 * (vx k * vx p0 + vy k * vy p0 + vz k * vz p0)) - sqrt disc) / (2 * 1) = s2).
  { unfold s2, dot. field. }
  rewrite Htp, Htm.
  assert (Hdist : forall q, (vx p0 + q * vx k - vx p1) ^ 2 + (vy p0 + q * vy k - vy p1) ^ 2
             + (vz p0 + q * vz k - vz p1) ^ 2 = (m - q) ^ 2).
  { intros q. rewrite Hp1. destruct p0 as [[a b] c], k as [[u v] w]. unfold along, vadd, vscale; cbn [vx vy vz] in *.
    transitivity ((m - q) ^ 2 * (u ^ 2 + v ^ 2 + w ^ 2)); [ring|]. rewrite Ha. ring. }
  cbn [vx vy vz]. rewrite !Hdist.
  assert (Hal : forall q, (vx p0 + q * vx k, vy p0 + q * vy k, vz p0 + q * vz k) = along p0 k q).
  { intros q. reflexivity. }
  rewrite !Hal.
  destruct (Reqb disc 0) eqn:E0.
  - apply Reqb_true in E0. assert (s2 = s) as -> by (unfold s, s2; rewrite E0, sqrt_0; lra).
    replace (Rltb ((m - s) ^ 2) ((m - s) ^ 2)) with false by (symmetry; apply Rltb_false; lra). reflexivity.
  - apply Reqb_false in E0. assert (0 < sqrt disc) by (apply sqrt_lt_R0; lra).
    assert (s2 < s) by (unfold s, s2; lra).
    replace (Rltb ((m - s) ^ 2) ((m - s2) ^ 2)) with true; [reflexivity|].
    symmetry; apply Rltb_true. nra.
Qed.

Lemma normalize1_exists v : dot v v <> 0 -> exists u, normalize1 v = Some u.
Proof.
  intros H. destruct (normalize1 v) as [u|] eqn:E; [eauto|].
  apply normalize1_none in E. contradiction.
Qed.

Lemma in_out_differ p0 p1 r : dot p0 p0 <= r ^ 2 -> r ^ 2 < dot p1 p1 -> dot (vsub p1 p0) (vsub p1 p0) <> 0.
Proof.
  intros H0 H1 H. apply dot_zero_vec in H.
  destruct p0 as [[a b] c], p1 as [[x y] z]. unfold vsub, vzero in H. cbn in H. inversion H.
  replace x with a in * by lra. replace y with b in * by lra. replace z with c in * by lra. lra.
Qed.

Lemma intersect_spec p0 p1 r :
  0 < r -> dot p0 p0 < r ^ 2 -> r ^ 2 < dot p1 p1 ->
  let q := find_vec_sphere_intersect p0 p1 r in
  dot q q = r ^ 2 /\ exists s, 0 < s < 1 /\ q = vadd p0 (vscale s (vsub p1 p0)).
Proof.
  intros Hr H0 H1.
  destruct (normalize1_exists (vsub p1 p0)) as [k Hk]; [apply (in_out_differ p0 p1 r); lra|].
  destruct (intersect_general p0 p1 r k Hr ltac:(lra) H1 Hk) as (Hd & Hon & Hs & _ & E).
  set (disc := 4 * dot k p0 ^ 2 + 4 * (r ^ 2 - dot p0 p0)) in *.
  set (s := - dot k p0 + sqrt disc / 2) in *.
  assert (Hdp : 0 < disc) by (unfold disc; pose proof (sq_nonneg_pow (dot k p0)); lra).
  replace (Reqb disc 0) with false in E by (symmetry; apply Reqb_false; lra).
  cbv zeta. rewrite E. split; [exact Hon|].
  destruct (normalize1_some _ _ Hk) as (Hm & Hv & Hu).
  set (m := magnitude (vsub p1 p0)) in *.
  exists (s / m). split.
  - assert (Hs0 : 0 < s).
    { destruct Hs as [[Hs|Hs] _]; [exact Hs|exfalso]. rewrite along_dot, <- Hs in Hon by exact Hu. nra. }
    split; [apply Rdiv_lt_0_compat; lra|].
    apply (Rmult_lt_reg_r m); [exact Hm|]. unfold Rdiv. rewrite Rmult_assoc, Rinv_l by lra. lra.
  - unfold along. f_equal. rewrite Hv. destruct k as [[u v] w]. unfold vscale; cbn.
    f_equal; [f_equal|]; field; lra.
Qed.

(* ------------------------------------------------------------------ *)
(** * Exit angle from the sphere *)

Lemma acos_le_half x : 0 <= x -> acos x <= PI / 2.
Proof.
  intros H. destruct (Req_dec x 0) as [->|Hn]; [rewrite acos_0; lra|].
  destruct (Rle_lt_dec x 1) as [H1|H1].
  - pose proof (acos_decreasing 0 x ltac:(lra) ltac:(lra) H1) as Hd. rewrite acos_0 in Hd. lra.
  - unfold acos. destruct (Rle_dec x (-1)); [lra|]. destruct (Rle_dec 1 x); [|lra].
    pose proof PI_RGT_0; lra.
Qed.

Lemma exit_angle_half p0 p1 r : 0 < r -> dot p0 p0 <= r ^ 2 -> r ^ 2 < dot p1 p1 ->
  fst (sphere_angle_norm (normalize1 (vsub p1 p0)) (find_vec_sphere_intersect p0 p1 r)) <= PI / 2.
Proof.
  intros Hr H0 H1. unfold sphere_angle_norm. cbn [fst].
  destruct (normalize1_exists (vsub p1 p0)) as [k Hk]; [apply (in_out_differ p0 p1 r); lra|].
  destruct (intersect_general p0 p1 r k Hr H0 H1 Hk) as (Hd & Hon & Hs & Hdot & E).
  rewrite E, Hk. apply acos_le_half.
  destruct (Reqb _ 0) eqn:E0.
  - destruct (normalize1 vzero) as [u|] eqn:Ez; [|cbn; lra].
    apply normalize1_some in Ez as [Hm _]. exfalso.
    assert (magnitude vzero ^ 2 = 0) by (rewrite magnitude_sq; unfold dot, vzero; cbn; ring). nra.
  - set (q := along p0 k _) in *.
    destruct (normalize1 q) as [u|] eqn:Ez; [|cbn; lra]. cbn [nan_to_num].
    apply normalize1_some in Ez as (Hm & Hv & Hu).
    set (a := magnitude q) in *. rewrite Hv in Hdot.
    assert (Hx : dot (vscale a u) k = a * (vx u * vx k + vy u * vy k + vz u * vz k)).
    { unfold dot, vscale; cbn; ring. }
    rewrite Hx in Hdot. pose proof (sqrt_pos (4 * dot k p0 ^ 2 + 4 * (r ^ 2 - dot p0 p0))).
    destruct (Rle_lt_dec 0 (vx u * vx k + vy u * vy k + vz u * vz k)); [assumption|nra].
Qed.

(* ------------------------------------------------------------------ *)
(** * inf_to_large (C43) *)

Lemma pow20_big : 100 < 10 ^ 20.
Proof. replace 100 with (10 ^ 2) by ring. apply Rlt_pow; [lra|lia]. Qed.

Lemma cap_hi_lo_range r x : 0 < r -> Rabs (cap_lo r (cap_hi r x)) <= 10 ^ 20 * r.
Proof.
  intros Hr. pose proof pow20_big as Hb. set (B := 10 ^ 20) in *.
  unfold cap_lo, cap_hi. fold B.
  assert (100 * r < B * r) by (apply Rmult_lt_compat_r; lra).
  destruct (Rltb (B * r) x) eqn:E1.
  - replace (Rltb (100 * r) (- B * r)) with false by (symmetry; apply Rltb_false; nra).
    rewrite Rabs_pos_eq; lra.
  - apply Rltb_false in E1. destruct (Rltb x (- B * r)) eqn:E2.
    + replace (- 100 * r) with (- (100 * r)) by ring. rewrite Rabs_Ropp, Rabs_pos_eq; lra.
    + apply Rltb_false in E2. apply Rabs_le. lra.
Qed.
Lemma cap_hi_lo_sign r x : 0 < r ->
  (0 < x <-> 0 < cap_lo r (cap_hi r x)) /\ (x < 0 <-> cap_lo r (cap_hi r x) < 0).
Proof.
  intros Hr. pose proof pow20_big as Hb. set (B := 10 ^ 20) in *.
  unfold cap_lo, cap_hi. fold B.
  assert (100 * r < B * r) by (apply Rmult_lt_compat_r; lra).
  destruct (Rltb (B * r) x) eqn:E1.
  - apply Rltb_true in E1. replace (Rltb (100 * r) (- B * r)) with false by (symmetry; apply Rltb_false; nra).
    split; split; intros; lra.
  - apply Rltb_false in E1. destruct (Rltb x (- B * r)) eqn:E2.
    + apply Rltb_true in E2. split; split; intros; lra.
    + split; split; intros; lra.
Qed.
Lemma cap_hi_lo_small r x : 0 < r -> Rabs x <= 10 ^ 20 * r -> cap_lo r (cap_hi r x) = x.
Proof.
  intros Hr Hx. pose proof pow20_big as Hb. set (B := 10 ^ 20) in *.
  assert (- (B * r) <= x <= B * r).
  { pose proof (Rle_abs x). pose proof (Rle_abs (- x)). rewrite Rabs_Ropp in *. lra. }
  unfold cap_lo, cap_hi. fold B.
  replace (Rltb (B * r) x) with false by (symmetry; apply Rltb_false; lra).
  replace (Rltb x (- B * r)) with false by (symmetry; apply Rltb_false; lra). reflexivity.
Qed.
Lemma cap_hi_small r x : 0 < r -> Rabs x <= 10 ^ 20 * r -> cap_hi r x = x.
Proof.
  intros Hr Hx. pose proof (Rle_abs x). unfold cap_hi.
  replace (Rltb (10 ^ 20 * r) x) with false by (symmetry; apply Rltb_false; lra). reflexivity.
Qed.
Lemma cap_hi_lo_big r x : 0 < r -> 10 ^ 20 * r < Rabs x -> Rabs (cap_lo r (cap_hi r x)) = 100 * r.
Proof.
  intros Hr Hx. pose proof pow20_big as Hb. set (B := 10 ^ 20) in *.
  assert (100 * r < B * r) by (apply Rmult_lt_compat_r; lra).
  unfold cap_lo, cap_hi. fold B.
  destruct (Rltb (B * r) x) eqn:E1.
  - replace (Rltb (100 * r) (- B * r)) with false by (symmetry; apply Rltb_false; nra).
    rewrite Rabs_pos_eq; lra.
  - apply Rltb_false in E1.
    assert (x < - B * r).
    { destruct (Rle_lt_dec 0 x); [rewrite Rabs_pos_eq in Hx; lra|]. rewrite Rabs_left in Hx; lra. }
    replace (Rltb x (- B * r)) with true by (symmetry; now apply Rltb_true).
    replace (- 100 * r) with (- (100 * r)) by ring. rewrite Rabs_Ropp, Rabs_pos_eq; lra.
Qed.

(** A point inside the ball is not clamped; a point outside stays outside. *)
Lemma coord_le v r : 0 < r -> dot v v <= r ^ 2 -> Rabs (vx v) <= r /\ Rabs (vy v) <= r /\ Rabs (vz v) <= r.
Proof.
  intros Hr H. destruct v as [[x y] z]. unfold dot in H; cbn in *.
  repeat split; apply Rabs_le; split; nra.
Qed.
Lemma inf_to_large_in_out p0 p1 r : 0 < r -> dot p0 p0 <= r ^ 2 -> r ^ 2 < dot p1 p1 ->
  exists p1', inf_to_large p0 p1 r = (p0, p1') /\ r ^ 2 < dot p1' p1'.
Proof.
  intros Hr H0 H1. unfold inf_to_large. pose proof pow20_big as Hb.
  assert (HB : r <= 10 ^ 20 * r) by nra.
  destruct (coord_le p0 r Hr H0) as (X & Y & Z).
  rewrite !cap_hi_lo_small, cap_hi_small by lra.
  eexists. split; [destruct p0 as [[a b] c]; reflexivity|].
  assert (G : forall x, cap_lo r (cap_hi r x) = x \/ r ^ 2 < cap_lo r (cap_hi r x) ^ 2).
  { intros x. destruct (Rle_lt_dec (Rabs x) (10 ^ 20 * r)) as [Hx|Hx]; [left; now apply cap_hi_lo_small|right].
    rewrite <- (pow2_abs (cap_lo r (cap_hi r x))), cap_hi_lo_big by assumption. nra. }
  destruct p1 as [[a b] c]. unfold dot in *; cbn [vx vy vz] in *.
  set (ca := cap_lo r (cap_hi r a)) in *. set (cb := cap_lo r (cap_hi r b)) in *. set (cc := cap_lo r (cap_hi r c)) in *.
  pose proof (sq_nonneg_pow ca). pose proof (sq_nonneg_pow cb). pose proof (sq_nonneg_pow cc).
  destruct (G a) as [Ea|Ea]; fold ca in Ea; [|lra].
  destruct (G b) as [Eb|Eb]; fold cb in Eb; [|lra].
  destruct (G c) as [Ec|Ec]; fold cc in Ec; [|lra].
  rewrite Ea, Eb, Ec. exact H1.
Qed.

(** z0 is not bounded from below. *)
Lemma inf_to_large_refuted_l : exists p0 p1 r, 0 < r /\
  vz (fst (inf_to_large p0 p1 r)) < - (10 ^ 20 * r).
Proof.
  exists (0, 0, - (2 * 10 ^ 20)), vzero, 1. split; [lra|]. unfold inf_to_large. cbn [fst vz].
  pose proof pow20_big as Hb. set (B := 10 ^ 20) in *. unfold cap_hi. fold B.
  replace (Rltb (B * 1) (- (2 * B))) with false by (symmetry; apply Rltb_false; lra). lra.
Qed.

(* ------------------------------------------------------------------ *)
(** * rotate_refract (C38) *)

(** Rodrigues' formula. *)
Definition rodrigues (n k : vec) (alpha : R) : vec :=
  vadd (vadd (vscale (cos alpha) k) (vscale (sin alpha) (cross n k)))
       (vscale ((1 - cos alpha) * dot n k) n).

Lemma rotate_refract_rodrigues p n k alpha : dot n n = 1 ->
  rotate_refract p n k alpha = rodrigues n k alpha.
Proof.
  destruct p as [[a b] c], n as [[u v] w], k as [[x y] z].
  unfold rotate_refract, rodrigues, dot, cross, vadd, vscale. cbn [vx vy vz]. intros H.
  set (C := cos alpha). set (S := sin alpha).
  assert (Hv : v ^ 2 + w ^ 2 = 1 - u ^ 2) by lra.
  assert (Hu : u ^ 2 + w ^ 2 = 1 - v ^ 2) by lra.
  assert (Hw : u ^ 2 + v ^ 2 = 1 - w ^ 2) by lra.
  rewrite Hv, Hu, Hw. f_equal; [f_equal|]; ring.
Qed.

Lemma rot_point p q n k alpha : dot n n = 1 -> rotate_refract p n k alpha = rotate_refract q n k alpha.
Proof. intros H. now rewrite !rotate_refract_rodrigues. Qed.

Lemma rot_isometry p n k l alpha : dot n n = 1 ->
  dot (rotate_refract p n k alpha) (rotate_refract p n l alpha) = dot k l.
Proof.
  intros H. rewrite !rotate_refract_rodrigues by exact H.
  pose proof (sin2_cos2 alpha) as Hsc. unfold Rsqr in Hsc.
  destruct n as [[u v] w], k as [[x y] z], l as [[x' y'] z'].
  unfold rodrigues, dot, cross, vadd, vscale in *. cbn [vx vy vz] in *.
  set (C := cos alpha) in *. set (S := sin alpha) in *.
  nsatz.
Qed.

Lemma rot_axis p n alpha c : dot n n = 1 -> rotate_refract p n (vscale c n) alpha = vscale c n.
Proof.
  intros H. rewrite rotate_refract_rodrigues by exact H.
  destruct n as [[u v] w]. unfold rodrigues, dot, cross, vadd, vscale in *. cbn [vx vy vz] in *.
  set (C := cos alpha). set (S := sin alpha).
  f_equal; [f_equal|]; nsatz.
Qed.

Lemma rot_turns p n k alpha : dot n n = 1 -> dot n k = 0 ->
  dot (rotate_refract p n k alpha) k = cos alpha * dot k k
  /\ dot (cross k (rotate_refract p n k alpha)) n = sin alpha * dot k k.
Proof.
  intros H Hk. rewrite rotate_refract_rodrigues by exact H.
  destruct n as [[u v] w], k as [[x y] z]. unfold rodrigues, dot, cross, vadd, vscale in *. cbn [vx vy vz] in *.
  set (C := cos alpha). set (S := sin alpha). split; nsatz.
Qed.

Lemma rot_inverse p q n k alpha : dot n n = 1 ->
  rotate_refract q n (rotate_refract p n k alpha) (- alpha) = k.
Proof.
  intros H. rewrite !rotate_refract_rodrigues by exact H.
  pose proof (sin2_cos2 alpha) as Hsc. unfold Rsqr in Hsc.
  destruct n as [[u v] w], k as [[x y] z]. unfold rodrigues, dot, cross, vadd, vscale in *. cbn [vx vy vz] in *.
  rewrite sin_neg, cos_neg. set (C := cos alpha) in *. set (S := sin alpha) in *.
  f_equal; [f_equal|]; nsatz.
Qed.

(* ------------------------------------------------------------------ *)
(** * rotate_reflect (C40) *)

Lemma reflect_isometry k l n : dot n n = 1 -> dot (rotate_reflect k n) (rotate_reflect l n) = dot k l.
Proof.
  destruct n as [[u v] w], k as [[x y] z], l as [[a b] c].
  unfold rotate_reflect, dot; cbn [vx vy vz]. intros H. nsatz.
Qed.
Lemma reflect_involution k n : dot n n = 1 -> rotate_reflect (rotate_reflect k n) n = k.
Proof.
  destruct n as [[u v] w], k as [[x y] z].
  unfold rotate_reflect, dot; cbn [vx vy vz]. intros H. f_equal; [f_equal|]; nsatz.
Qed.
Lemma reflect_mirror k n : rotate_reflect k n = mirror n k.
Proof.
  destruct n as [[u v] w], k as [[x y] z].
  reflexivity.
Qed.
Lemma reflect_normal k n : dot n n = 1 -> dot (rotate_reflect k n) n = - dot k n.
Proof.
  destruct n as [[u v] w], k as [[x y] z].
  unfold rotate_reflect, dot; cbn [vx vy vz]. intros H. nsatz.
Qed.
Lemma reflect_tangent k n t : dot t n = 0 -> dot (rotate_reflect k n) t = dot k t.
Proof.
  destruct n as [[u v] w], k as [[x y] z], t as [[a b] c].
  unfold rotate_reflect, dot; cbn [vx vy vz]. intros H.
  transitivity (x * a + y * b + z * c - 2 * (x * u + y * v + z * w) * (a * u + b * v + c * w)); [ring|].
  rewrite H; ring.
Qed.

(* ------------------------------------------------------------------ *)
(** * Refraction into the goniometer (C41) *)

Lemma unit_xy k : dot k k = 1 -> vx k ^ 2 + vy k ^ 2 = 1 - vz k ^ 2.
Proof. unfold dot. intros; lra. Qed.

Lemma refracted_direction_spec k p n1 n2 :
  unit k -> vz k <> 0 -> (vx k <> 0 \/ vy k <> 0) -> 0 < n1 -> 0 < n2 ->
  n1 * sqrt (1 - vz k ^ 2) <= n2 ->
  exists d q, calc_refracted_direction k p n1 n2 = Some (d, q)
    /\ unit d /\ vz d <= 0
    /\ vx d = n1 / n2 * vx k /\ vy d = n1 / n2 * vy k
    /\ vz q = 0 /\ exists s, q = vadd p (vscale s k).
Proof.
  intros Hu Hz Hxy H1 H2 Hc. unfold unit in Hu. pose proof (unit_xy k Hu) as Hk.
  unfold calc_refracted_direction.
  replace (Reqb (vz k) 0) with false by (symmetry; now apply Reqb_false). cbv zeta.
  assert (Hkz : (if Rltb 0 (vz k) then - vz k else vz k) = - Rabs (vz k)).
  { destruct (Rltb 0 (vz k)) eqn:E.
    - apply Rltb_true in E. rewrite Rabs_pos_eq; lra.
    - apply Rltb_false in E. rewrite Rabs_left1; lra. }
  rewrite Hkz. rewrite Rabs_Ropp, Rabs_Rabsolu.
  set (c := Rabs (vz k)). assert (Hc0 : 0 < c) by (apply Rabs_pos_lt, Hz).
  assert (Hc2 : c ^ 2 = vz k ^ 2) by (unfold c; apply pow2_abs).
  set (s := sqrt (1 - vz k ^ 2)) in *.
  assert (Hxyp : 0 < vx k ^ 2 + vy k ^ 2) by (destruct Hxy; nra).
  assert (Hs2 : s ^ 2 = 1 - vz k ^ 2) by (apply pow2_sqrt; lra).
  assert (Hs : 0 < s) by (apply sqrt_lt_R0; lra).
  assert (Hsle : s <= 1) by nra.
  assert (Hmag : magnitude (- vy k, vx k, 0) = s).
  { unfold magnitude. cbn [vx vy vz]. rewrite !pow2_abs. unfold s. f_equal. lra. }
  unfold normalize1, div_vec. rewrite Hmag.
  replace (Reqb s 0) with false by (symmetry; apply Reqb_false; lra). cbn [vx vy vz].
  set (t1 := acos c).
  assert (Hc1 : c <= 1) by nra.
  assert (Hct : cos t1 = c) by (unfold t1; apply cos_acos; lra).
  assert (Hst : sin t1 = s).
  { unfold t1. rewrite sin_acos by lra. unfold s. f_equal. unfold Rsqr. lra. }
  assert (Hq : 0 <= n1 / n2 * s <= 1).
  { assert (0 < / n2) by (now apply Rinv_0_lt_compat). split; [unfold Rdiv; apply Rmult_le_pos; [apply Rmult_le_pos|]; lra|].
    replace (n1 / n2 * s) with (n1 * s / n2) by (field; lra).
    apply (Rmult_le_reg_r n2); [exact H2|]. unfold Rdiv. rewrite Rmult_assoc, Rinv_l by lra. lra. }
  unfold refraction. rewrite Hst. rewrite Rabs_pos_eq by lra.
  replace (Rltb 1 (n1 / n2 * s)) with false by (symmetry; apply Rltb_false; lra).
  set (t2 := asin (n1 / n2 * s)).
  assert (Hst2 : sin t2 = n1 / n2 * s) by (apply sin_asin; lra).
  assert (Hct2 : 0 <= cos t2) by (apply cos_ge_0; apply asin_bound).
  do 2 eexists. split; [reflexivity|].
  assert (Hax : dot (- vy k / s, vx k / s, 0 / s) (- vy k / s, vx k / s, 0 / s) = 1).
  { unfold dot; cbn [vx vy vz]. transitivity ((vx k ^ 2 + vy k ^ 2) / s ^ 2); [field; lra|].
    rewrite Hs2, Hk. field. lra. }
  rewrite rotate_refract_rodrigues by exact Hax.
  assert (Hd : rodrigues (- vy k / s, vx k / s, 0 / s) (vx k, vy k, - c) (- (t2 - t1))
     = (n1 / n2 * vx k, n1 / n2 * vy k, - cos t2)).
  { unfold rodrigues, dot, cross, vadd, vscale; cbn [vx vy vz].
    set (b := - (t2 - t1)).
    assert (Hx : cos b * s - sin b * c = sin t2).
    { rewrite <- Hst, <- Hct. replace (sin t2) with (sin (t1 - b)) by (f_equal; unfold b; ring).
      rewrite sin_minus. ring. }
    assert (Hy : cos b * c + sin b * s = cos t2).
    { rewrite <- Hst, <- Hct. replace (cos t2) with (cos (t1 - b)) by (f_equal; unfold b; ring).
      rewrite cos_minus. ring. }
    f_equal; [f_equal|].
    - transitivity (vx k / s * (cos b * s - sin b * c)); [field; lra|]. rewrite Hx, Hst2. field. lra.
    - transitivity (vy k / s * (cos b * s - sin b * c)); [field; lra|]. rewrite Hx, Hst2. field. lra.
    - transitivity (- (cos b * c) - sin b * ((vx k ^ 2 + vy k ^ 2) / s)); [field; lra|].
      rewrite Hk, <- Hs2. rewrite <- Hy. field. lra. }
  rewrite Hd. unfold unit, dot; cbn [vx vy vz]. split.
  { pose proof (sin2_cos2 t2) as Hsc. unfold Rsqr in Hsc. rewrite Hst2 in Hsc.
    transitivity ((n1 / n2) ^ 2 * (vx k ^ 2 + vy k ^ 2) + cos t2 * cos t2); [ring|].
    rewrite Hk, <- Hs2, <- Hsc. ring. }
  split; [lra|]. split; [reflexivity|]. split; [reflexivity|]. split; [reflexivity|].
  exists (- vz p / vz k). destruct p as [[px py] pz], k as [[kx ky] kz]. unfold vadd, vscale; cbn [vx vy vz] in *.
  f_equal; [f_equal|]; field; exact Hz.
Qed.

(** A ray leaving exactly along the normal is never detected. *)
Lemma refracted_direction_normal c p n1 n2 : calc_refracted_direction (0, 0, c) p n1 n2 = None.
Proof.
  unfold calc_refracted_direction. cbn [vx vy vz]. destruct (Reqb c 0); [reflexivity|]. cbv zeta.
  unfold normalize1, div_vec, magnitude. cbn [vx vy vz]. rewrite Ropp_0, !Rabs_R0.
  replace (0 ^ 2 + 0 ^ 2 + 0 ^ 2) with 0 by ring. rewrite sqrt_0.
  replace (Reqb 0 0) with true by (symmetry; now apply Reqb_true). reflexivity.
Qed.

(* ------------------------------------------------------------------ *)
(** * Directions refracted out of the sphere (C39) *)

(** With equal indices the direction is unchanged. *)
Lemma exit_kz_same ev t th n z :
  0 < n -> exit_kz ev t th n n = Some z -> fst (sphere_exit_angle th t ev) <= PI / 2 ->
  z = vz (vselect (t_dir t) ev).
Proof.
  intros Hn H Ha. unfold exit_kz in H. destruct (sphere_exit_angle th t ev) as [a nv] eqn:E. cbn [fst] in Ha.
  assert (Ha0 : 0 <= a).
  { replace a with (fst (sphere_exit_angle th t ev)) by (now rewrite E).
    unfold sphere_exit_angle. destruct (inf_to_large _ _ _). apply acos_nonneg. }
  unfold refraction in H. replace (n / n) with 1 in H by (field; lra). rewrite Rmult_1_l in H.
  destruct (Rltb 1 (Rabs (sin a))); [discriminate|].
  rewrite asin_sin in H by (pose proof PI_RGT_0; lra).
  injection H as H. rewrite <- H. 
  destruct (cross (vselect (t_dir t) ev) nv) as [[u v] w]. unfold rotate_refract. cbn [vz].
  replace (a - a) with 0 by ring. rewrite cos_0, sin_0. ring.
Qed.


Lemma low_ray_angle h : 0 < h < 1 ->
  sphere_exit_angle 2 (low_ray h) 1 = (acos (sqrt (1 - h ^ 2)), (sqrt (1 - h ^ 2), 0, - h)).
Proof.
  intros Hh. unfold sphere_exit_angle, low_ray. cbn [t_pos centred map removelast tl vselect nth vx vy vz].
  replace (2 / 2) with 1 by field. replace (1 - h - 1) with (- h) by ring.
  set (c := sqrt (1 - h ^ 2)).
  assert (Hc2 : c ^ 2 = 1 - h ^ 2) by (apply pow2_sqrt; nra).
  assert (Hc : 0 < c) by (apply sqrt_lt_R0; nra).
  assert (Hin : inf_to_large (0, 0, - h) (2, 0, - h) 1 = ((0, 0, - h), (2, 0, - h))).
  { pose proof pow20_big as Hb. unfold inf_to_large. cbn [vx vy vz].
    rewrite !cap_hi_lo_small, cap_hi_small; try lra; try reflexivity;
      try (rewrite Rabs_Ropp, Rabs_pos_eq; lra); rewrite Rabs_pos_eq; lra. }
  rewrite Hin.
  assert (Hn : normalize1 (vsub (2, 0, - h) (0, 0, - h)) = Some (1, 0, 0)).
  { unfold vsub; cbn [vx vy vz]. unfold normalize1, div_vec, magnitude; cbn [vx vy vz].
    replace (- h - - h) with 0 by ring. rewrite Rminus_0_r, Rminus_0_r, Rabs_R0.
    replace (Rabs 2 ^ 2 + 0 ^ 2 + 0 ^ 2) with (2 * 2) by (rewrite Rabs_pos_eq; lra).
    rewrite sqrt_square by lra.
    replace (Reqb 2 0) with false by (symmetry; apply Reqb_false; lra).
    f_equal. f_equal; [f_equal|]; field. }
  destruct (intersect_general (0, 0, - h) (2, 0, - h) 1 (1, 0, 0)) as (_ & _ & _ & _ & E); auto.
  - lra.
  - unfold dot; cbn; nra.
  - unfold dot; cbn; nra.
  - rewrite E, Hn. clear E.
    assert (Hd : 4 * dot (1, 0, 0) (0, 0, - h) ^ 2 + 4 * (1 ^ 2 - dot (0, 0, - h) (0, 0, - h)) = (2 * c) ^ 2).
    { unfold dot; cbn [vx vy vz]. replace ((2 * c) ^ 2) with (4 * c ^ 2) by ring. rewrite Hc2. ring. }
    rewrite Hd. replace (sqrt ((2 * c) ^ 2)) with (2 * c) by (symmetry; apply sqrt_pow2; lra).
    replace (Reqb ((2 * c) ^ 2) 0) with false by (symmetry; apply Reqb_false; nra).
    assert (Hal : along (0, 0, - h) (1, 0, 0) (- dot (1, 0, 0) (0, 0, - h) + 2 * c / 2) = (c, 0, - h)).
    { unfold along, vadd, vscale, dot; cbn [vx vy vz]. f_equal; [f_equal|]; field. }
    rewrite Hal. unfold sphere_angle_norm.
    assert (Hnn : normalize1 (c, 0, - h) = Some (c, 0, - h)).
    { unfold normalize1, div_vec, magnitude; cbn [vx vy vz]. rewrite !pow2_abs.
      replace (c ^ 2 + 0 ^ 2 + (- h) ^ 2) with 1 by (rewrite Hc2; ring). rewrite sqrt_1.
      replace (Reqb 1 0) with false by (symmetry; apply Reqb_false; lra).
      f_equal. f_equal; [f_equal|]; field. }
    rewrite Hnn. cbn [nan_to_num vx vy vz]. f_equal. f_equal. ring.
Qed.

Lemma exit_kz_wrong_side h n1 n2 :
  0 < h < 1 -> 0 < n2 < n1 -> n1 * h < n2 ->
  let n := (sqrt (1 - h ^ 2), 0, - h) in
  (exists z, exit_kz 1 (low_ray h) 2 n1 n2 = Some z /\ z < 0)
  /\ (forall d, unit d -> 0 <= dot d n -> cross d n = vscale (n1 / n2) (cross (1, 0, 0) n) -> 0 < vz d).
Proof.
  intros Hh Hn Htir n.
  set (c := sqrt (1 - h ^ 2)) in *.
  assert (Hc2 : c ^ 2 = 1 - h ^ 2) by (apply pow2_sqrt; nra).
  assert (Hc : 0 < c) by (apply sqrt_lt_R0; nra).
  assert (Hc1 : c < 1) by nra.
  assert (H2i : 0 < / n2) by (apply Rinv_0_lt_compat; lra).
  assert (Hm1 : 1 < n1 / n2).
  { apply (Rmult_lt_reg_r n2); [lra|]. unfold Rdiv. rewrite Rmult_assoc, Rinv_l; lra. }
  assert (Hmh : n1 / n2 * h < 1).
  { replace (n1 / n2 * h) with (n1 * h / n2) by (field; lra).
    apply (Rmult_lt_reg_r n2); [lra|]. unfold Rdiv. rewrite Rmult_assoc, Rinv_l; lra. }
  set (m := n1 / n2) in *. split.
  - set (t1 := acos c).
    assert (Hct : cos t1 = c) by (unfold t1; apply cos_acos; lra).
    assert (Hst : sin t1 = h).
    { unfold t1. rewrite sin_acos by lra. replace (1 - Rsqr c) with (h * h) by (unfold Rsqr; lra).
      apply sqrt_square; lra. }
    assert (Ht1 : 0 < t1 < PI / 2).
    { assert (Hb := acos_bound c). fold t1 in Hb. pose proof PI_RGT_0. split.
      - destruct (Req_dec t1 0) as [E|E]; [|lra]. rewrite E, sin_0 in Hst. lra.
      - pose proof (acos_decreasing 0 c ltac:(lra) Hc ltac:(lra)) as Hd. rewrite acos_0 in Hd. exact Hd. }
    set (t2 := asin (m * h)).
    assert (Hst2 : sin t2 = m * h) by (apply sin_asin; nra).
    assert (Ht2 : t1 < t2 < PI / 2).
    { assert (Hb := asin_bound (m * h)). fold t2 in Hb. split.
      - destruct (Rlt_le_dec t1 t2) as [|Hx]; [assumption|exfalso].
        assert (sin t2 <= sin t1) by (apply sin_incr_1; lra). nra.
      - destruct Hb as [_ [Hb|Hb]]; [exact Hb|]. rewrite Hb, sin_PI2 in Hst2. lra. }
    exists (h * (1 - h ^ 2) * (1 - cos (t2 - t1)) - h * sin (t2 - t1)). split.
    + unfold exit_kz. rewrite low_ray_angle by exact Hh. fold c. fold t1.
      unfold refraction. rewrite Hst. fold m.
      replace (Rltb 1 (Rabs (m * h))) with false.
      2: { symmetry. apply Rltb_false. rewrite Rabs_pos_eq; nra. }
      fold t2. f_equal. unfold rotate_refract, cross, low_ray. cbn [vselect t_dir nth vx vy vz].
      set (C := cos (t2 - t1)). set (S := sin (t2 - t1)). field.
    + set (al := t2 - t1). assert (Hal : 0 < al < PI / 2) by (unfold al; lra).
      assert (Hs : 0 < sin al) by (apply sin_gt_0; pose proof PI_RGT_0; lra).
      assert (Hco : 0 < cos al) by (apply cos_gt_0; lra).
      assert (Hsum : 1 < sin al + cos al).
      { pose proof (sin2_cos2 al) as Hsc. unfold Rsqr in Hsc. nra. }
      assert (0 <= 1 - cos al) by (pose proof (COS_bound al); lra).
      assert ((1 - h ^ 2) * (1 - cos al) <= 1 - cos al) by nra. nra.
  - intros d Hd Hn0 Hcr. destruct d as [[x y] z]. unfold cross, vscale, n in *. cbn [vx vy vz] in *.
    unfold unit, dot in *. cbn [vx vy vz] in *.
    injection Hcr as E1 E2 E3.
    assert (Hy : y = 0) by nra. subst y.
    assert (Hz : z * c + x * h = m * h) by lra.
    (* x^2 + z^2 = 1, z c + x h = m h, x c - z h >= 0 *)
    destruct (Rlt_le_dec 0 z) as [|Hneg]; [assumption|exfalso].
    assert (x < 1 \/ x = 1) as [Hx|Hx] by nra; nra.
Qed.
