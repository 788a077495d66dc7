(** The Percus-Yevick structure factor. *)
From Coq Require Import Lra Lia Psatz.
From Coquelicot Require Import Coquelicot.
From Verif Require Import L_num M_structure Spec_optics L_interp.
Open Scope R_scope.

(** ** The transform of the direct correlation function. *)

Definition py_prim (q phi r : R) : R :=
  c0 phi * (sin (q * r) - q * r * cos (q * r)) / q ^ 3
  + c1 phi * (- (q * r) ^ 2 * cos (q * r) + 2 * (q * r) * sin (q * r) + 2 * cos (q * r)) / q ^ 4
  + c3 phi * (- (q * r) ^ 4 * cos (q * r) + 4 * (q * r) ^ 3 * sin (q * r)
              + 12 * (q * r) ^ 2 * cos (q * r) - 24 * (q * r) * sin (q * r)
              - 24 * cos (q * r)) / q ^ 6.

Lemma py_prim_derive : forall q phi r, q <> 0 ->
  is_derive (py_prim q phi) r
    (r * (sin (q * r) / q) * (c0 phi + c1 phi * r + c3 phi * r ^ 3)).
Proof.
  intros q phi r Hq. unfold py_prim. auto_derive; [exact I|]. field. assumption.
Qed.

Lemma py_integral : forall q phi, q <> 0 ->
  is_RInt (fun r => r * (sin (q * r) / q) * cc r phi) 0 1 (py_prim q phi 1 - py_prim q phi 0).
Proof.
  intros q phi Hq.
  apply (is_RInt_ext (fun r => r * (sin (q * r) / q) * (c0 phi + c1 phi * r + c3 phi * r ^ 3))).
  - intros r Hr. rewrite Rmin_left, Rmax_right in Hr by lra.
    unfold cc. rewrite (proj2 (Rltb_false _ _)) by lra. reflexivity.
  - apply (is_RInt_derive (py_prim q phi)).
    + intros r _. apply py_prim_derive. assumption.
    + intros r _. apply (ex_derive_continuous (V := R_NormedModule)). auto_derive. exact I.
Qed.

Lemma py_c_integral : forall q phi, q <> 0 -> phi <> 1 ->
  py_c q phi = 24 * phi * RInt (fun r => r * (sin (q * r) / q) * cc r phi) 0 1.
Proof.
  intros q phi Hq Hp. rewrite (is_RInt_unique _ _ _ _ (py_integral q phi Hq)).
  unfold py_prim, py_c, py_lambda1, py_lambda2, c3, c0, c1.
  rewrite !Rmult_0_r, !Rmult_1_r, sin_0, cos_0. field. split; [lra | assumption].
Qed.

(** ** The Wertheim factorisation. *)

Definition Wr (q e : R) : R :=
  - (6 * e * (1 - e) * q ^ 2) - 12 * e * (1 + 2 * e)
  + 12 * e * ((1 + 2 * e) * cos q + (1 + e / 2) * q * sin q).
Definition Wi (q e : R) : R :=
  - ((1 - e) ^ 2 * q ^ 3) + 18 * e ^ 2 * q
  + 12 * e * ((1 + e / 2) * q * cos q - (1 + 2 * e) * sin q).

Lemma py_factor : forall q phi, q <> 0 -> phi <> 1 ->
  1 - py_c q phi = (Wr q phi ^ 2 + Wi q phi ^ 2) / ((1 - phi) ^ 4 * q ^ 6).
Proof.
  intros q p Hq Hp. unfold py_c, Wr, Wi, py_lambda1, py_lambda2.
  pose proof (sin2_cos2 q) as T. unfold Rsqr in T.
  set (s := sin q) in *. set (c := cos q) in *. clearbody s c.
  assert (C2 : s * s = 1 - c * c) by lra.
  field_simplify_eq; [|split; [assumption | lra]].
  replace (s ^ 2) with (1 - c * c) by (rewrite <- C2; ring).
  ring.
Qed.

Lemma W_nonzero : forall q e, 0 < q -> 0 < e < 1 -> 0 < Wr q e ^ 2 + Wi q e ^ 2.
Proof.
  intros q e Hq He.
  set (Sr := - (6 * e * (1 - e) * q ^ 2) - 12 * e * (1 + 2 * e)).
  set (Si := - ((1 - e) ^ 2 * q ^ 3) + 18 * e ^ 2 * q).
  set (Lr := 12 * e * (1 + 2 * e)). set (Li := 12 * e * (1 + e / 2) * q).
  assert (D : Sr ^ 2 + Si ^ 2 - (Lr ^ 2 + Li ^ 2) = (1 - e) ^ 4 * q ^ 6).
  { unfold Sr, Si, Lr, Li. field. }
  assert (P : 0 < (1 - e) ^ 4 * q ^ 6) by (apply Rmult_lt_0_compat; apply pow_lt; lra).
  pose proof (pow2_ge_0 (Wr q e)) as Q1. pose proof (pow2_ge_0 (Wi q e)) as Q2.
  destruct (Rle_lt_or_eq_dec 0 (Wr q e ^ 2 + Wi q e ^ 2)) as [G|E]; [lra|assumption|exfalso].
  assert (Z1 : Wr q e = 0) by nra. assert (Z2 : Wi q e = 0) by nra.
  pose proof (sin2_cos2 q) as T. unfold Rsqr in T.
  assert (E1 : Sr = - (Lr * cos q + Li * sin q)).
  { unfold Wr in Z1. unfold Sr, Lr, Li. lra. }
  assert (E2 : Si = - (Li * cos q - Lr * sin q)).
  { unfold Wi in Z2. unfold Si, Lr, Li. lra. }
  assert (K : Sr ^ 2 + Si ^ 2 = (Lr ^ 2 + Li ^ 2) * (sin q * sin q + cos q * cos q)).
  { rewrite E1, E2. ring. }
  rewrite T in K. lra.
Qed.

Lemma factor_py_value : forall q phi, 0 < q -> 0 < phi < 1 ->
  0 < 1 - py_c q phi /\ factor_py q phi = Some (1 / (1 - py_c q phi)).
Proof.
  intros q phi Hq Hp.
  assert (P : 0 < 1 - py_c q phi).
  { rewrite py_factor by lra. apply Rdiv_lt_0_compat; [apply W_nonzero; assumption|].
    apply Rmult_lt_0_compat; apply pow_lt; lra. }
  split; [assumption|]. unfold factor_py.
  rewrite (proj2 (Reqb_false _ _)) by lra. rewrite (proj2 (Reqb_false _ _)) by lra.
  cbn [orb]. unfold ndiv. rewrite (proj2 (Reqb_false _ _)) by lra. reflexivity.
Qed.

(** ** Limits. *)

Lemma sin_bound_cubic : forall x, 0 <= x -> x - x ^ 3 / 6 <= sin x <= x.
Proof.
  intros x Hx. split.
  - destruct (Rle_lt_or_eq_dec 0 x Hx) as [L|<-]; [|rewrite sin_0; lra].
    destruct (Rle_lt_dec x 3) as [S3|B3].
    + pose proof (SIN_bound x).
      assert (K : sin_lb x <= sin x) by (apply SIN; [lra | pose proof PI_RGT_0; pose proof PI_4; assert (3 < PI) by (pose proof PI2_3_2; lra); lra]).
      unfold sin_lb, sin_approx, sin_term in K. cbn [sum_f_R0 Nat.mul Nat.add fact pow INR] in K.
      assert (0 <= x ^ 5) by (apply pow_le; lra).
      assert (x ^ 7 <= 9 * x ^ 5).
      { replace (x ^ 7) with (x ^ 5 * (x * x)) by ring.
        assert (x * x <= 9) by nra. nra. }
      simpl in K. simpl in *. lra.
    + pose proof (SIN_bound x). assert (27 <= x ^ 3 / 1) by (simpl; nra). nra.
  - destruct (Rle_lt_or_eq_dec 0 x Hx) as [L|<-]; [|rewrite sin_0; lra].
    left. apply sin_lt_x. assumption.
Qed.

Definition cpoly (phi r : R) : R := c0 phi + c1 phi * r + c3 phi * r ^ 3.
Definition cmax (phi : R) : R := Rabs (c0 phi) + Rabs (c1 phi) + Rabs (c3 phi).

Lemma cpoly_bound : forall phi r, 0 <= r <= 1 -> Rabs (cpoly phi r) <= cmax phi.
Proof.
  intros phi r Hr. unfold cpoly, cmax.
  eapply Rle_trans; [apply Rabs_triang|].
  eapply Rle_trans; [apply Rplus_le_compat_r, Rabs_triang|].
  rewrite !Rabs_mult.
  rewrite (Rabs_pos_eq r), (Rabs_pos_eq (r ^ 3)) by (try apply pow_le; lra).
  assert (r ^ 3 <= 1) by (rewrite <- (pow1 3); apply pow_incr; lra).
  assert (0 <= r ^ 3) by (apply pow_le; lra).
  pose proof (Rabs_pos (c1 phi)). pose proof (Rabs_pos (c3 phi)). nra.
Qed.

Lemma cpoly_moment : forall phi,
  is_RInt (fun r => r ^ 2 * cpoly phi r) 0 1 (c0 phi / 3 + c1 phi / 4 + c3 phi / 6).
Proof.
  intros phi. set (F := fun r => c0 phi * r ^ 3 / 3 + c1 phi * r ^ 4 / 4 + c3 phi * r ^ 6 / 6).
  replace (c0 phi / 3 + c1 phi / 4 + c3 phi / 6) with (F 1 - F 0) by (unfold F; field).
  apply (is_RInt_derive F).
  - intros r _. unfold F, cpoly. auto_derive; [exact I|]. field.
  - intros r _. apply (ex_derive_continuous (V := R_NormedModule)).
    unfold cpoly. auto_derive. exact I.
Qed.

Lemma py_moment_value : forall phi, phi <> 1 ->
  1 - 24 * phi * (c0 phi / 3 + c1 phi / 4 + c3 phi / 6) = (1 + 2 * phi) ^ 2 / (1 - phi) ^ 4.
Proof. intros phi Hp. unfold c3, c0, c1. field. lra. Qed.

Lemma py_low_q : forall q phi, 0 < q -> 0 < phi < 1 ->
  Rabs ((1 - py_c q phi) - (1 + 2 * phi) ^ 2 / (1 - phi) ^ 4)
  <= 4 * phi * cmax phi * q ^ 2.
Proof.
  intros q phi Hq Hp. rewrite <- py_moment_value by lra.
  rewrite py_c_integral by lra.
  set (f := fun r => r * (sin (q * r) / q) * cc r phi).
  assert (If : is_RInt (fun r => r * (sin (q * r) / q) * cpoly phi r) 0 1 (RInt f 0 1)).
  { apply (is_RInt_ext f).
    - intros r Hr. rewrite Rmin_left, Rmax_right in Hr by lra. unfold f, cc.
      rewrite (proj2 (Rltb_false _ _)) by lra. reflexivity.
    - apply (@RInt_correct R_CompleteNormedModule). eexists. apply py_integral. lra. }
  pose proof (is_RInt_minus _ _ _ _ _ _ If (cpoly_moment phi)) as Im.
  set (M := c0 phi / 3 + c1 phi / 4 + c3 phi / 6) in *.
  replace (1 - 24 * phi * RInt f 0 1 - (1 - 24 * phi * M))
    with (- (24 * phi) * (RInt f 0 1 - M)) by ring.
  rewrite Rabs_mult, Rabs_Ropp, (Rabs_pos_eq (24 * phi)) by lra.
  assert (B : Rabs (RInt f 0 1 - M) <= (1 - 0) * (q ^ 2 / 6 * cmax phi)).
  { pose proof (is_RInt_unique _ _ _ _ Im) as EQ.
    change (minus (RInt f 0 1) M) with (RInt f 0 1 - M) in EQ. rewrite <- EQ.
    apply abs_RInt_le_const; [lra | eexists; exact Im |].
    intros r Hr. unfold minus, plus, opp; cbn.
    replace (r * (sin (q * r) / q) * cpoly phi r + - (r * (r * 1) * cpoly phi r))
      with (r * ((sin (q * r) - q * r) / q) * cpoly phi r) by (field; lra).
    rewrite !Rabs_mult. rewrite (Rabs_pos_eq r) by lra.
    pose proof (cpoly_bound phi r Hr) as CB.
    pose proof (sin_bound_cubic (q * r) ltac:(nra)) as SB.
    assert (DB : Rabs ((sin (q * r) - q * r) / q) <= q ^ 2 / 6).
    { unfold Rdiv. rewrite Rabs_mult, (Rabs_pos_eq (/ q)) by (left; apply Rinv_0_lt_compat; lra).
      apply (Rmult_le_reg_r q); [lra|]. rewrite Rmult_assoc, Rinv_l by lra.
      rewrite Rabs_left1 by lra.
      assert (r ^ 3 <= 1) by (rewrite <- (pow1 3); apply pow_incr; lra).
      assert ((q * r) ^ 3 <= q ^ 3).
      { rewrite Rpow_mult_distr. assert (0 < q ^ 3) by (apply pow_lt; lra). nra. }
      replace (q ^ 2 * / 6 * q) with (q ^ 3 / 6) by field. lra. }
    pose proof (Rabs_pos ((sin (q * r) - q * r) / q)).
    pose proof (Rabs_pos (cpoly phi r)).
    apply Rle_trans with (Rabs ((sin (q * r) - q * r) / q) * Rabs (cpoly phi r)).
    - apply Rmult_le_compat_r; [assumption|]. nra.
    - change (q * (q * 1) / 6) with (q ^ 2 / 6).
      apply Rmult_le_compat; assumption. }
  apply Rle_trans with (24 * phi * ((1 - 0) * (q ^ 2 / 6 * cmax phi))).
  - apply Rmult_le_compat_l; lra.
  - right. field.
Qed.

Lemma div_pow_bound : forall q a b n m, 1 <= q -> Rabs a <= b * q ^ n -> 0 <= b ->
  (n + 2 <= m)%nat -> Rabs (a / q ^ m) <= b / q ^ 2.
Proof.
  intros q a b n m Hq Ha Hb Hnm.
  assert (P : forall k, 0 < q ^ k) by (intros; apply pow_lt; lra).
  unfold Rdiv. rewrite Rabs_mult, (Rabs_pos_eq (/ q ^ m)) by (left; apply Rinv_0_lt_compat, P).
  apply (Rmult_le_reg_r (q ^ m)); [apply P|].
  rewrite Rmult_assoc, Rinv_l by (pose proof (P m); lra). rewrite Rmult_1_r.
  replace m with (n + 2 + (m - n - 2))%nat by lia. rewrite !pow_add.
  replace (b * / q ^ 2 * (q ^ n * q ^ 2 * q ^ (m - n - 2)))
    with (b * q ^ n * q ^ (m - n - 2)) by (field; pose proof (P 2%nat); lra).
  assert (1 <= q ^ (m - n - 2)) by (apply pow_R1_Rle; assumption).
  assert (0 <= b * q ^ n) by (apply Rmult_le_pos; [assumption | left; apply P]).
  nra.
Qed.

Lemma Rabs_sin_le : forall x, Rabs (sin x) <= 1.
Proof. intros x. apply Rabs_le. pose proof (SIN_bound x). lra. Qed.
Lemma Rabs_cos_le : forall x, Rabs (cos x) <= 1.
Proof. intros x. apply Rabs_le. pose proof (COS_bound x). lra. Qed.

Lemma py_high_q : forall q phi, 1 <= q -> 0 < phi < 1 ->
  Rabs (py_c q phi) <= 24 * phi * (2 * Rabs (py_lambda1 phi)
      + 42 * phi * Rabs (py_lambda2 phi) + 89 / 2 * phi * Rabs (py_lambda1 phi)) / q ^ 2.
Proof.
  intros q phi Hq Hp.
  pose proof (SIN_bound q) as SB. pose proof (COS_bound q) as CB.
  assert (P : forall k, 0 < q ^ k) by (intros; apply pow_lt; lra).
  assert (Q2 : 1 <= q ^ 2) by (apply pow_R1_Rle; assumption).
  assert (Q12 : q <= q ^ 2) by (simpl; nra).
  assert (Q34 : q ^ 3 <= q ^ 4) by (replace (q ^ 4) with (q ^ 3 * q) by ring; pose proof (P 3%nat); nra).
  assert (Q24 : q ^ 2 <= q ^ 4) by (replace (q ^ 4) with (q ^ 2 * q ^ 2) by ring; nra).
  assert (T1 : Rabs ((sin q - q * cos q) / q ^ 3) <= 2 / q ^ 2).
  { apply div_pow_bound with 1%nat; try lra; try lia. rewrite pow_1. apply Rabs_le. nra. }
  assert (T2 : Rabs ((q ^ 2 * cos q - 2 * q * sin q - 2 * cos q + 2) / q ^ 4) <= 7 / q ^ 2).
  { apply div_pow_bound with 2%nat; try lra; try lia. apply Rabs_le.
    assert (- q ^ 2 <= q ^ 2 * cos q <= q ^ 2) by nra.
    assert (- q ^ 2 <= q * sin q <= q ^ 2) by nra. lra. }
  assert (T3 : Rabs ((q ^ 4 * cos q - 4 * q ^ 3 * sin q - 12 * q ^ 2 * cos q
                    + 24 * q * sin q + 24 * cos q - 24) / q ^ 6) <= 89 / q ^ 2).
  { apply div_pow_bound with 4%nat; try lra; try lia. apply Rabs_le.
    assert (- q ^ 4 <= q ^ 4 * cos q <= q ^ 4) by (pose proof (P 4%nat); nra).
    assert (- q ^ 4 <= q ^ 3 * sin q <= q ^ 4) by (pose proof (P 3%nat); nra).
    assert (- q ^ 4 <= q ^ 2 * cos q <= q ^ 4) by nra.
    assert (- q ^ 4 <= q * sin q <= q ^ 4) by nra. lra. }
  set (t1 := (sin q - q * cos q) / q ^ 3) in *.
  set (t2 := (q ^ 2 * cos q - 2 * q * sin q - 2 * cos q + 2) / q ^ 4) in *.
  set (t3 := (q ^ 4 * cos q - 4 * q ^ 3 * sin q - 12 * q ^ 2 * cos q
                    + 24 * q * sin q + 24 * cos q - 24) / q ^ 6) in *.
  assert (E : py_c q phi = -24 * phi * (py_lambda1 phi * t1 - 6 * phi * (py_lambda2 phi * t2)
                - phi / 2 * (py_lambda1 phi * t3))).
  { unfold py_c, t1, t2, t3. field. lra. }
  rewrite E. clearbody t1 t2 t3. clear E.
  set (l1 := py_lambda1 phi). set (l2 := py_lambda2 phi).
  assert (A1 : Rabs (l1 * t1) <= Rabs l1 * (2 / q ^ 2)).
  { rewrite Rabs_mult. apply Rmult_le_compat_l; [apply Rabs_pos | assumption]. }
  assert (A2 : Rabs (l2 * t2) <= Rabs l2 * (7 / q ^ 2)).
  { rewrite Rabs_mult. apply Rmult_le_compat_l; [apply Rabs_pos | assumption]. }
  assert (A3 : Rabs (l1 * t3) <= Rabs l1 * (89 / q ^ 2)).
  { rewrite Rabs_mult. apply Rmult_le_compat_l; [apply Rabs_pos | assumption]. }
  replace (24 * phi * (2 * Rabs l1 + 42 * phi * Rabs l2 + 89 / 2 * phi * Rabs l1) / q ^ 2)
    with (24 * phi * (Rabs l1 * (2 / q ^ 2) + 6 * phi * (Rabs l2 * (7 / q ^ 2))
                      + phi / 2 * (Rabs l1 * (89 / q ^ 2)))) by (field; lra).
  rewrite Rabs_mult. replace (Rabs (-24 * phi)) with (24 * phi)
    by (rewrite Rabs_left by lra; ring).
  apply Rmult_le_compat_l; [lra|].
  apply Rcomplements.Rabs_le_between in A1, A2, A3.
  apply Rcomplements.Rabs_le_between.
  set (u := Rabs l1 * (2 / q ^ 2)) in *. set (v := Rabs l2 * (7 / q ^ 2)) in *.
  set (w := Rabs l1 * (89 / q ^ 2)) in *. clearbody u v w.
  set (x := l1 * t1) in *. set (y := l2 * t2) in *. set (z := l1 * t3) in *. clearbody x y z.
  nra.
Qed.

(** ** The statements in the form used by the properties. *)

Lemma inv_close : forall a b e, 0 < a -> 0 < b -> 0 < e ->
  Rabs (b - a) <= Rmin (a / 2) (a ^ 2 * e / 4) -> Rabs (1 / b - 1 / a) < e.
Proof.
  intros a b e Ha Hb He H.
  pose proof (Rmin_l (a / 2) (a ^ 2 * e / 4)). pose proof (Rmin_r (a / 2) (a ^ 2 * e / 4)).
  set (d := Rabs (b - a)) in *.
  assert (B : a / 2 <= b).
  { assert (Rabs (b - a) <= a / 2) by (unfold d in H; lra).
    apply Rcomplements.Rabs_le_between in H2. lra. }
  replace (1 / b - 1 / a) with (- (b - a) / (a * b)) by (field; lra).
  unfold Rdiv. rewrite Rabs_mult, Rabs_Ropp. fold d.
  assert (0 < a * b) by nra.
  rewrite Rabs_pos_eq by (left; apply Rinv_0_lt_compat; assumption).
  apply (Rmult_lt_reg_r (a * b)); [assumption|].
  rewrite Rmult_assoc, Rinv_l by lra. rewrite Rmult_1_r.
  apply Rle_lt_trans with (a ^ 2 * e / 4); [lra|]. simpl. 
  assert (a * (a / 2) <= a * b) by nra.
  assert (0 < a * a * e) by (apply Rmult_lt_0_compat; nra). nra.
Qed.

Lemma factor_py_low : forall phi, 0 < phi < 1 -> forall eps, 0 < eps ->
  exists delta, 0 < delta /\ forall q s, 0 < q < delta -> factor_py q phi = Some s ->
    Rabs (s - (1 - phi) ^ 4 / (1 + 2 * phi) ^ 2) < eps.
Proof.
  intros phi Hp eps He. set (a := (1 + 2 * phi) ^ 2 / (1 - phi) ^ 4).
  assert (A1 : 0 < (1 + 2 * phi) ^ 2) by (apply pow_lt; lra).
  assert (A2 : 0 < (1 - phi) ^ 4) by (apply pow_lt; lra).
  assert (Ha : 0 < a) by (apply Rdiv_lt_0_compat; assumption).
  set (m := Rmin (a / 2) (a ^ 2 * eps / 4)).
  assert (Hm : 0 < m).
  { apply Rmin_glb_lt; [lra|]. assert (0 < a ^ 2) by (apply pow_lt; assumption). nra. }
  assert (Hc : 0 <= cmax phi).
  { unfold cmax. pose proof (Rabs_pos (c0 phi)). pose proof (Rabs_pos (c1 phi)).
    pose proof (Rabs_pos (c3 phi)). lra. }
  set (K := 4 * phi * cmax phi + 1). assert (HK : 1 <= K) by (unfold K; nra).
  exists (Rmin 1 (m / K)).
  assert (HmK : 0 < m / K) by (apply Rdiv_lt_0_compat; lra).
  split; [apply Rmin_glb_lt; lra|].
  intros q s [Hq Hd] Hs.
  pose proof (Rmin_l 1 (m / K)). pose proof (Rmin_r 1 (m / K)).
  destruct (factor_py_value q phi Hq Hp) as [Hb E]. rewrite E in Hs. injection Hs as <-.
  replace ((1 - phi) ^ 4 / (1 + 2 * phi) ^ 2) with (1 / a) by (unfold a; field; lra).
  apply inv_close; try assumption.
  eapply Rle_trans; [apply py_low_q; assumption|]. fold m.
  apply Rle_trans with (K * q).
  - unfold K. assert (q ^ 2 <= q) by (simpl; nra).
    assert (0 <= 4 * phi * cmax phi) by nra. nra.
  - assert (q <= m / K) by lra.
    replace m with (K * (m / K)) by (field; lra). apply Rmult_le_compat_l; lra.
Qed.

Lemma factor_py_high : forall phi, 0 < phi < 1 -> forall eps, 0 < eps ->
  exists Q, 0 < Q /\ forall q s, Q < q -> factor_py q phi = Some s ->
    Rabs (s - 1) < eps.
Proof.
  intros phi Hp eps He.
  set (K := 24 * phi * (2 * Rabs (py_lambda1 phi)
      + 42 * phi * Rabs (py_lambda2 phi) + 89 / 2 * phi * Rabs (py_lambda1 phi)) + 1).
  assert (HK : 1 <= K).
  { unfold K. pose proof (Rabs_pos (py_lambda1 phi)). pose proof (Rabs_pos (py_lambda2 phi)).
    assert (0 <= 24 * phi * (2 * Rabs (py_lambda1 phi)
      + 42 * phi * Rabs (py_lambda2 phi) + 89 / 2 * phi * Rabs (py_lambda1 phi)))
      by (apply Rmult_le_pos; nra). lra. }
  set (m := Rmin (1 / 2) (1 ^ 2 * eps / 4)).
  assert (Hm : 0 < m) by (apply Rmin_glb_lt; lra).
  exists (Rmax 1 (K / m)).
  pose proof (Rmax_l 1 (K / m)). pose proof (Rmax_r 1 (K / m)).
  split; [lra|]. intros q s Hq Hs.
  destruct (factor_py_value q phi ltac:(lra) Hp) as [Hb E]. rewrite E in Hs. injection Hs as <-.
  replace 1 with (1 / 1) at 3 by field.
  apply inv_close; try assumption; try lra.
  replace (1 - py_c q phi - 1) with (- py_c q phi) by ring. rewrite Rabs_Ropp. fold m.
  eapply Rle_trans; [apply py_high_q; lra|].
  assert (Q1 : 0 < q ^ 2) by (apply pow_lt; lra).
  apply Rle_trans with (K / q ^ 2).
  - unfold Rdiv at 1 3. apply Rmult_le_compat_r; [left; apply Rinv_0_lt_compat; assumption|].
    unfold K. lra.
  - apply (Rmult_le_reg_r (q ^ 2)); [assumption|].
    unfold Rdiv. rewrite Rmult_assoc, Rinv_l by lra. rewrite Rmult_1_r.
    assert (K <= m * q).
    { apply Rle_trans with (m * (K / m)); [right; field; lra|].
      apply Rmult_le_compat_l; lra. }
    assert (q <= q ^ 2) by (simpl; nra). nra.
Qed.
