(** Proofs about the complex Fresnel coefficients (C117). *)
From Coq Require Import Lra Lia Psatz.
From Verif Require Import Num Spec Spec_absorbing L_num M_model M_absorbing L_fresnel L_effindex.
From Coquelicot Require Import Complex.
Open Scope R_scope.

Definition sqmod (z : C) : R := fst z ^ 2 + snd z ^ 2.
Lemma Cmod2 z : Cmod z ^ 2 = sqmod z.
Proof. unfold Cmod, sqmod. rewrite <- Rsqr_pow2, Rsqr_sqrt; [reflexivity|]. nra. Qed.

Lemma cratio_value a b : sqmod b <> 0 -> cratio a b = Some (sqmod a / sqmod b).
Proof.
  intros H. assert (b <> RtoC 0).
  { intros ->. apply H. unfold sqmod, RtoC. cbn. ring. }
  unfold cratio. destruct (Reqb (fst b) 0 && Reqb (snd b) 0)%bool eqn:E.
  - apply andb_prop in E as [E1 E2]. apply Reqb_true in E1, E2. exfalso. apply H. unfold sqmod. rewrite E1, E2. ring.
  - f_equal. rewrite Cmod_div by assumption. unfold Rdiv. rewrite Rpow_mult_distr, Cmod2, pow_inv, Cmod2. reflexivity.
Qed.

(** Not in the branch of total reflection. *)
Lemma not_tir_cplx casin n1 n2 theta : 0 < n1 -> n1 <= fst n2 -> 0 <= snd n2 ->
  Cltb (Cdiv n2 (RtoC n1)) (RtoC 1) && Cleb (casin (Cdiv n2 (RtoC n1))) (RtoC theta) = false.
Proof.
  intros H1 H2 H3. assert (E : Cdiv n2 (RtoC n1) = (fst n2 / n1, snd n2 / n1)).
  { destruct n2 as [a b]. unfold Cdiv, Cinv, Cmult, RtoC. cbn [fst snd]. f_equal; field; lra. }
  rewrite E. unfold Cltb, RtoC. cbn [fst snd].
  assert (1 <= fst n2 / n1).
  { apply Rmult_le_reg_r with n1; [exact H1|]. unfold Rdiv. rewrite Rmult_assoc, Rinv_l; lra. }
  assert (0 <= snd n2 / n1) by (apply Rmult_le_pos; [lra|left; now apply Rinv_0_lt_compat]).
  rewrite (proj2 (Rltb_false _ _)) by lra. rewrite (proj2 (Rltb_false (snd n2 / n1) 0)) by lra.
  now rewrite Bool.andb_false_r.
Qed.

Definition croot (n1 : R) (n2 : C) (theta : R) : R :=
  sqrt (Cmod (Cminus (Cmult n2 n2) (Cmult (Cmult (RtoC n1) (RtoC (sin theta))) (Cmult (RtoC n1) (RtoC (sin theta)))))).

Lemma sqmod_par (n1 r c : R) (z : C) :
  sqmod (Cminus (Cmult (RtoC n1) (RtoC r)) (Cmult z (RtoC c))) = (n1 * r - fst z * c) ^ 2 + (snd z * c) ^ 2
  /\ sqmod (Cplus (Cmult (RtoC n1) (RtoC r)) (Cmult z (RtoC c))) = (n1 * r + fst z * c) ^ 2 + (snd z * c) ^ 2.
Proof.
  destruct z as [x y]. unfold sqmod, Cminus, Cplus, Copp, Cmult, RtoC. cbn [fst snd]. split; ring.
Qed.
Lemma sqmod_perp (n1 r c : R) :
  sqmod (Cminus (Cmult (RtoC n1) (RtoC c)) (RtoC r)) = (n1 * c - r) ^ 2
  /\ sqmod (Cplus (Cmult (RtoC n1) (RtoC c)) (RtoC r)) = (n1 * c + r) ^ 2.
Proof. unfold sqmod, Cminus, Cplus, Copp, Cmult, RtoC. cbn [fst snd]. split; ring. Qed.

Lemma perp_fraction casin n1 n2 theta : 0 < n1 -> - (PI / 2) < theta < PI / 2 ->
  exists r, snd (fresnel_cplx1 casin (RtoC n1) n2 theta) = Some r /\ 0 <= r <= 1.
Proof.
  intros H1 Ht. unfold fresnel_cplx1. cbv zeta. destruct (_ && _)%bool.
  - exists 1. cbn. split; [reflexivity|lra].
  - cbn [snd]. fold (croot n1 n2 theta). assert (0 <= croot n1 n2 theta) by apply sqrt_pos.
    assert (0 < cos theta) by (apply cos_gt_0; lra).
    destruct (sqmod_perp n1 (croot n1 n2 theta) (cos theta)) as [E1 E2].
    assert (0 < n1 * cos theta) by now apply Rmult_lt_0_compat.
    assert (D : 0 < (n1 * cos theta + croot n1 n2 theta) ^ 2) by (apply pow_lt; lra).
    rewrite cratio_value; rewrite E2; [|lra]. rewrite E1. eexists. split; [reflexivity|].
    split.
    + apply Rmult_le_pos; [apply pow2_ge_0|left; now apply Rinv_0_lt_compat].
    + apply Rmult_le_reg_r with ((n1 * cos theta + croot n1 n2 theta) ^ 2); [exact D|].
      unfold Rdiv. rewrite Rmult_assoc, Rinv_l by lra. nra.
Qed.

Lemma croot_pos n1 n2 theta : 0 < n1 -> n1 <= fst n2 -> 0 <= snd n2 -> - (PI / 2) < theta < PI / 2 ->
  0 < croot n1 n2 theta.
Proof.
  intros H1 H2 H3 Ht. unfold croot. apply sqrt_lt_R0, Cmod_gt_0. intros E.
  destruct n2 as [a b]. cbn [fst snd] in *. unfold Cminus, Cplus, Copp, Cmult, RtoC in E. cbn [fst snd] in E.
  injection E as E1 E2.
  assert (Q : sin theta ^ 2 < 1).
  { pose proof (sin2_cos2 theta) as Q. unfold Rsqr in Q. assert (0 < cos theta) by (apply cos_gt_0; lra). nra. }
  assert (b = 0) by nra. subst b. assert (n1 ^ 2 * sin theta ^ 2 < n1 ^ 2) by (apply pow_lt with (n := 2%nat) in H1; nra).
  nra.
Qed.

Lemma par_fraction_iff casin n1 n2 theta : 0 < n1 -> n1 <= fst n2 -> 0 <= snd n2 -> - (PI / 2) < theta < PI / 2 ->
  exists r, fst (fresnel_cplx1 casin (RtoC n1) n2 theta) = Some r /\ 0 <= r /\ (r <= 1 <-> snd n2 <= fst n2).
Proof.
  intros H1 H2 H3 Ht. unfold fresnel_cplx1. cbv zeta. rewrite not_tir_cplx by assumption. cbn [fst].
  fold (croot n1 n2 theta). pose proof (croot_pos n1 n2 theta H1 H2 H3 Ht) as Hr.
  assert (Hc : 0 < cos theta) by (apply cos_gt_0; lra).
  set (c := cos theta) in *. set (r := croot n1 n2 theta) in *. set (z := Cmult n2 n2).
  destruct (sqmod_par n1 r c z) as [E1 E2].
  assert (Hz1 : fst z = fst n2 ^ 2 - snd n2 ^ 2) by (unfold z; destruct n2; cbn; ring).
  assert (Hz2 : snd z = 2 * fst n2 * snd n2) by (unfold z; destruct n2; cbn; ring).
  assert (Ha : 0 < n1 * r) by now apply Rmult_lt_0_compat.
  assert (D : 0 < (n1 * r + fst z * c) ^ 2 + (snd z * c) ^ 2).
  { destruct (Req_dec (snd z) 0) as [Z|Z].
    - assert (snd n2 = 0) by nra. assert (0 < fst z) by (rewrite Hz1, H; nra).
      assert (0 < fst z * c) by now apply Rmult_lt_0_compat. assert (0 < (n1 * r + fst z * c) ^ 2) by (apply pow_lt; lra).
      pose proof (pow2_ge_0 (snd z * c)). lra.
    - assert (0 < (snd z * c) ^ 2). { rewrite <- Rsqr_pow2. apply Rsqr_pos_lt. apply Rmult_integral_contrapositive. split; [exact Z|lra]. }
      pose proof (pow2_ge_0 (n1 * r + fst z * c)). lra. }
  rewrite cratio_value; rewrite E2; [|lra]. rewrite E1. eexists. split; [reflexivity|].
  set (N := (n1 * r - fst z * c) ^ 2 + (snd z * c) ^ 2). set (M := (n1 * r + fst z * c) ^ 2 + (snd z * c) ^ 2) in *.
  assert (N0 : 0 <= N) by (unfold N; pose proof (pow2_ge_0 (n1 * r - fst z * c)); pose proof (pow2_ge_0 (snd z * c)); lra).
  assert (Diff : M - N = 4 * (n1 * r * c) * fst z) by (unfold M, N; ring).
  assert (K : 0 < n1 * r * c) by now apply Rmult_lt_0_compat.
  split; [apply Rmult_le_pos; [exact N0|left; now apply Rinv_0_lt_compat]|].
  assert (X : N / M <= 1 <-> N <= M).
  { split; intros H.
    - apply Rmult_le_compat_r with (r := M) in H; [|lra]. unfold Rdiv in H. rewrite Rmult_assoc, Rinv_l in H; lra.
    - apply Rmult_le_reg_r with M; [exact D|]. unfold Rdiv. rewrite Rmult_assoc, Rinv_l; lra. }
  rewrite X. split; intros H.
  - assert (0 <= fst z). { apply Rnot_lt_le. intros Hn. assert (4 * (n1 * r * c) * fst z < 0) by nra. lra. }
    rewrite Hz1 in *. apply Rnot_lt_le. intros Hn. nra.
  - assert (0 <= fst z) by (rewrite Hz1; nra). assert (0 <= 4 * (n1 * r * c) * fst z) by (apply Rmult_le_pos; lra). lra.
Qed.

(** Normal incidence. *)

Lemma quot_lt s x y : 0 < s -> - s < x -> x < y -> y <= s -> (s - y) / (s + y) < (s - x) / (s + x).
Proof.
  intros Hs Hx Hxy Hy. apply Rmult_lt_reg_r with ((s + y) * (s + x)); [nra|].
  replace ((s - y) / (s + y) * ((s + y) * (s + x))) with ((s - y) * (s + x)) by (field; lra).
  replace ((s - x) / (s + x) * ((s + y) * (s + x))) with ((s - x) * (s + y)) by (field; lra). nra.
Qed.

Lemma normal_bracket casin n1 n2 : 0 < n1 -> n1 <= fst n2 -> 0 < snd n2 ->
  exists rp rs, fresnel_cplx1 casin (RtoC n1) n2 0 = (Some rp, Some rs)
    /\ rs < normal_true n1 n2 < rp.
Proof.
  intros H1 H2 H3. pose proof PI_RGT_0. unfold fresnel_cplx1. cbv zeta. rewrite not_tir_cplx by lra.
  fold (croot n1 n2 0). set (r := croot n1 n2 0).
  assert (Er : r = Cmod n2).
  { unfold r, croot. rewrite sin_0. replace (Cmult (Cmult (RtoC n1) (RtoC 0)) (Cmult (RtoC n1) (RtoC 0))) with (RtoC 0) by ring.
    replace (Cminus (Cmult n2 n2) (RtoC 0)) with (Cmult n2 n2) by ring.
    rewrite Cmod_mult. apply sqrt_square. apply Cmod_ge_0. }
  rewrite cos_0. destruct n2 as [a b]. cbn [fst snd] in *.
  assert (Q : r ^ 2 = a ^ 2 + b ^ 2) by (rewrite Er, Cmod2; reflexivity).
  assert (R0 : 0 <= r) by (rewrite Er; apply Cmod_ge_0).
  assert (Ra : a < r) by nra.
  destruct (sqmod_par n1 r 1 (Cmult (a, b) (a, b))) as [E1 E2].
  destruct (sqmod_perp n1 r 1) as [E3 E4].
  assert (Hz1 : fst (Cmult (a, b) (a, b)) = a ^ 2 - b ^ 2) by (cbn; ring).
  assert (Hz2 : snd (Cmult (a, b) (a, b)) = 2 * a * b) by (cbn; ring).
  rewrite Hz1, Hz2 in *.
  assert (F1 : (n1 * r - (a ^ 2 - b ^ 2) * 1) ^ 2 + (2 * a * b * 1) ^ 2 = r ^ 2 * (n1 ^ 2 + r ^ 2) - 2 * n1 * r * (a ^ 2 - b ^ 2)).
  { replace (r ^ 2 * (n1 ^ 2 + r ^ 2)) with (r ^ 2 * n1 ^ 2 + (r ^ 2) * (r ^ 2)) by ring. rewrite Q at 2 3. ring. }
  assert (F2 : (n1 * r + (a ^ 2 - b ^ 2) * 1) ^ 2 + (2 * a * b * 1) ^ 2 = r ^ 2 * (n1 ^ 2 + r ^ 2) + 2 * n1 * r * (a ^ 2 - b ^ 2)).
  { replace (r ^ 2 * (n1 ^ 2 + r ^ 2)) with (r ^ 2 * n1 ^ 2 + (r ^ 2) * (r ^ 2)) by ring. rewrite Q at 2 3. ring. }
  assert (P2 : 0 < (2 * a * b * 1) ^ 2) by (apply pow_lt; nra).
  rewrite !cratio_value; rewrite ?E2, ?E4.
  2:{ apply Rgt_not_eq. apply pow_lt. nra. }
  2:{ apply Rgt_not_eq. pose proof (pow2_ge_0 (n1 * r + (a ^ 2 - b ^ 2) * 1)). lra. }
  rewrite E1, E3, F1, F2. eexists _, _. split; [reflexivity|].
  set (s := n1 ^ 2 + r ^ 2). assert (S0 : 0 < s) by (unfold s; nra).
  assert (T : normal_true n1 (a, b) = (s - 2 * n1 * a) / (s + 2 * n1 * a)).
  { unfold normal_true, s. cbn [fst snd]. rewrite Q. f_equal; ring. }
  rewrite T. split.
  - replace ((n1 * 1 - r) ^ 2 / (n1 * 1 + r) ^ 2) with ((s - 2 * n1 * r) / (s + 2 * n1 * r)).
    + apply quot_lt; try nra. unfold s. nra.
    + unfold s. f_equal; ring.
  - assert (r <> 0) by lra.
    assert (V : -(s) < 2 * n1 * ((a ^ 2 - b ^ 2) / r) < 2 * n1 * a).
    { assert (W : - r < (a ^ 2 - b ^ 2) / r < a).
      { split; apply Rmult_lt_reg_r with r; try lra; unfold Rdiv; rewrite ?Rmult_assoc, Rinv_l by assumption; nra. }
      split; [|nra]. assert (n1 * ((a ^ 2 - b ^ 2) / r) > - (n1 * r)) by nra. unfold s. nra. }
    replace ((r ^ 2 * s - 2 * n1 * r * (a ^ 2 - b ^ 2)) / (r ^ 2 * s + 2 * n1 * r * (a ^ 2 - b ^ 2)))
      with ((s - 2 * n1 * ((a ^ 2 - b ^ 2) / r)) / (s + 2 * n1 * ((a ^ 2 - b ^ 2) / r))).
    + apply quot_lt; try lra. unfold s. nra.
    + set (u := (a ^ 2 - b ^ 2) / r) in *. replace (a ^ 2 - b ^ 2) with (u * r) by (unfold u; field; exact H0).
      clearbody u s. replace (r ^ 2 * s - 2 * n1 * r * (u * r)) with (r ^ 2 * (s - 2 * n1 * u)) by ring.
      replace (r ^ 2 * s + 2 * n1 * r * (u * r)) with (r ^ 2 * (s + 2 * n1 * u)) by ring.
      field. split; [lra|exact H0].
Qed.

(** Agreement with the real coefficients. *)
Lemma cplx_is_real casin n1 n2 theta : 0 < n1 -> 0 < n2 -> - (PI / 2) < theta < PI / 2 ->
  (forall x, 0 < x < 1 -> casin (RtoC x) = RtoC (asin x)) ->
  fresnel_cplx1 casin (RtoC n1) (RtoC n2) theta
  = (Some (fst (fresnel_refl1 n1 n2 theta)), Some (snd (fresnel_refl1 n1 n2 theta))).
Proof.
  intros H1 H2 Ht Ha. unfold fresnel_cplx1, fresnel_refl1. cbv zeta.
  assert (E : Cdiv (RtoC n2) (RtoC n1) = RtoC (n2 / n1)) by (rewrite <- RtoC_div by lra; reflexivity).
  assert (P : 0 < n2 / n1) by (apply Rmult_lt_0_compat; [lra|now apply Rinv_0_lt_compat]).
  rewrite E.
  assert (B : Cltb (RtoC (n2 / n1)) (RtoC 1) && Cleb (casin (RtoC (n2 / n1))) (RtoC theta)
              = Rltb (n2 / n1) 1 && Rleb (asin (n2 / n1)) theta).
  { 
    assert (L0 : Cltb (RtoC (n2 / n1)) (RtoC 1) = Rltb (n2 / n1) 1).
    { unfold Cltb, RtoC. cbn [fst snd]. rewrite (proj2 (Rltb_false 0 0)) by lra.
      now rewrite Bool.andb_false_r, Bool.orb_false_r. }
    rewrite L0. destruct (Rltb (n2 / n1) 1) eqn:L; [|reflexivity].
    apply Rltb_true in L. rewrite Ha by lra. unfold Cleb, RtoC. cbn [fst snd andb].
    rewrite (proj2 (Rleb_true 0 0)) by lra. rewrite Bool.andb_true_r.
    destruct (Rleb (asin (n2 / n1)) theta) eqn:K.
    - apply Rleb_true in K. destruct (Req_dec (asin (n2 / n1)) theta) as [Q|Q].
      + rewrite Q. rewrite (proj2 (Reqb_true theta theta)) by reflexivity. apply Bool.orb_true_r.
      + rewrite (proj2 (Rltb_true _ _)) by lra. reflexivity.
    - apply Rleb_false in K. rewrite (proj2 (Rltb_false _ _)) by lra. rewrite (proj2 (Reqb_false _ _)) by lra. reflexivity. }
  rewrite B. destruct (Rltb (n2 / n1) 1 && Rleb (asin (n2 / n1)) theta)%bool; [reflexivity|].
  fold (croot n1 (RtoC n2) theta).
  assert (Er : croot n1 (RtoC n2) theta = sqrt (Rabs (n2 ^ 2 - (n1 * sin theta) ^ 2))).
  { unfold croot. f_equal. rewrite <- Cmod_R. f_equal. unfold Cminus, Cplus, Copp, Cmult, RtoC. cbn [fst snd]. f_equal; ring. }
  rewrite Er. set (r := sqrt _). assert (R0 : 0 <= r) by apply sqrt_pos.
  assert (Hc : 0 < cos theta) by (apply cos_gt_0; lra).
  destruct (sqmod_par n1 r (cos theta) (Cmult (RtoC n2) (RtoC n2))) as [E1 E2].
  destruct (sqmod_perp n1 r (cos theta)) as [E3 E4].
  assert (Hz1 : fst (Cmult (RtoC n2) (RtoC n2)) = n2 ^ 2) by (cbn; ring).
  assert (Hz2 : snd (Cmult (RtoC n2) (RtoC n2)) = 0) by (cbn; ring).
  rewrite Hz1, Hz2 in *.
  assert (D1 : 0 < n1 * r + n2 ^ 2 * cos theta).
  { assert (0 <= n1 * r) by (apply Rmult_le_pos; lra). assert (0 < n2 ^ 2 * cos theta) by (apply Rmult_lt_0_compat; [now apply pow_lt|assumption]). lra. }
  assert (D2 : 0 < n1 * cos theta + r) by (pose proof (Rmult_lt_0_compat _ _ H1 Hc); lra).
  assert (Q1 : (n1 * r + n2 ^ 2 * cos theta) ^ 2 + (0 * cos theta) ^ 2 = (n1 * r + n2 ^ 2 * cos theta) ^ 2) by ring.
  assert (Q2 : (n1 * r - n2 ^ 2 * cos theta) ^ 2 + (0 * cos theta) ^ 2 = (n1 * r - n2 ^ 2 * cos theta) ^ 2) by ring.
  rewrite Q1 in E2. rewrite Q2 in E1.
  pose proof (pow_lt _ 2 D1). pose proof (pow_lt _ 2 D2).
  rewrite !cratio_value; rewrite ?E2, ?E4; try lra. rewrite E1, E3. unfold abs_ratio_sq.
  rewrite !(proj2 (Reqb_false _ _)) by lra. cbn [fst snd]. rewrite !abs_sq.
  f_equal; f_equal; field; lra.
Qed.

(** Absorbing second medium. *)
Lemma absorbing_root n1 a b theta : 0 < a -> 0 < b -> 0 < croot n1 (a, b) theta.
Proof.
  intros Ha Hb. unfold croot. apply sqrt_lt_R0, Cmod_gt_0. intros E.
  unfold Cminus, Cplus, Copp, Cmult, RtoC in E. cbn [fst snd] in E. injection E as E1 E2. nra.
Qed.
Lemma half_cos theta : - (PI / 2) <= theta <= PI / 2 -> 0 <= cos theta.
Proof. apply cos_nonneg_range. Qed.

Lemma quot_fraction N M : 0 <= N -> N <= M -> 0 < M -> 0 <= N / M <= 1.
Proof.
  intros H1 H2 H3. split; [apply Rmult_le_pos; [lra|left; now apply Rinv_0_lt_compat]|].
  apply Rmult_le_reg_r with M; [exact H3|]. unfold Rdiv. rewrite Rmult_assoc, Rinv_l; lra.
Qed.

Lemma entrance_fractions casin m a b theta : 0 < m -> 0 < a -> 0 < b -> - (PI / 2) <= theta <= PI / 2 ->
  exists rp rs, fresnel_cplx1 casin (RtoC m) (a, b) theta = (Some rp, Some rs)
    /\ 0 <= rp /\ (b <= a -> rp <= 1) /\ 0 <= rs <= 1.
Proof.
  intros Hm Ha Hb Ht. unfold fresnel_cplx1. cbv zeta. destruct (_ && _)%bool.
  - exists 1, 1. split; [reflexivity|]. lra.
  - fold (croot m (a, b) theta). pose proof (absorbing_root m a b theta Ha Hb) as Hr. pose proof (half_cos theta Ht) as Hc.
    set (r := croot m (a, b) theta) in *. set (c := cos theta) in *.
    destruct (sqmod_par m r c (Cmult (a, b) (a, b))) as [E1 E2]. destruct (sqmod_perp m r c) as [E3 E4].
    assert (Hz1 : fst (Cmult (a, b) (a, b)) = a ^ 2 - b ^ 2) by (cbn; ring).
    assert (Hz2 : snd (Cmult (a, b) (a, b)) = 2 * a * b) by (cbn; ring). rewrite Hz1, Hz2 in *.
    assert (Kr : 0 < m * r) by now apply Rmult_lt_0_compat.
    assert (Kc : 0 <= m * c) by (apply Rmult_le_pos; lra).
    assert (D1 : 0 < (m * r + (a ^ 2 - b ^ 2) * c) ^ 2 + (2 * a * b * c) ^ 2).
    { destruct (Rle_lt_or_eq_dec _ _ Hc) as [P|<-].
      - assert (0 < 2 * a * b * c) by (apply Rmult_lt_0_compat; nra). pose proof (pow_lt _ 2 H).
        pose proof (pow2_ge_0 (m * r + (a ^ 2 - b ^ 2) * c)). lra.
      - rewrite !Rmult_0_r, Rplus_0_r. pose proof (pow_lt _ 2 Kr). lra. }
    assert (D2 : 0 < (m * c + r) ^ 2) by (apply pow_lt; lra).
    rewrite !cratio_value; rewrite ?E2, ?E4; try lra. rewrite E1, E3. eexists _, _. split; [reflexivity|].
    pose proof (pow2_ge_0 (m * r - (a ^ 2 - b ^ 2) * c)). pose proof (pow2_ge_0 (2 * a * b * c)).
    split; [apply Rmult_le_pos; [lra|left; now apply Rinv_0_lt_compat]|]. split.
    + intros Hab. apply quot_fraction; [lra| |exact D1].
      assert (0 <= a ^ 2 - b ^ 2) by nra. assert (0 <= (m * r) * ((a ^ 2 - b ^ 2) * c)) by (apply Rmult_le_pos; [lra|apply Rmult_le_pos; lra]).
      nra.
    + apply quot_fraction; [apply pow2_ge_0| |exact D2]. assert (0 <= m * c * r) by (apply Rmult_le_pos; lra). nra.
Qed.

Lemma exit_fractions casin m a b theta : 0 < m -> 0 < a -> 0 < b -> - (PI / 2) <= theta <= PI / 2 ->
  exists rp rs, fresnel_cplx1 casin (a, b) (RtoC m) theta = (Some rp, Some rs)
    /\ 0 <= rp <= 1 /\ 0 <= rs <= 1.
Proof.
  intros Hm Ha Hb Ht. unfold fresnel_cplx1. cbv zeta. destruct (_ && _)%bool.
  - exists 1, 1. split; [reflexivity|]. lra.
  - set (r := sqrt _).
    assert (Hr : 0 < r).
    { apply sqrt_lt_R0, Cmod_gt_0. intros E. unfold Cminus, Cplus, Copp, Cmult, RtoC in E. cbn [fst snd] in E.
      injection E as E1 E2. set (s := sin theta) in *. assert (X : -2 * (a * b * (s * s)) = 0) by (rewrite <- E2; ring).
      assert (Y : s * s = 0).
      { assert (0 < a * b) by now apply Rmult_lt_0_compat. destruct (Rmult_integral (a * b) (s * s)); lra. }
      assert (Z : m * m - (a * a - b * b) * (s * s) = 0) by (rewrite <- E1; ring). rewrite Y in Z. nra. }
    pose proof (half_cos theta Ht) as Hc. set (c := cos theta) in *.
    assert (E1 : sqmod (Cminus (Cmult (a, b) (RtoC r)) (Cmult (Cmult (RtoC m) (RtoC m)) (RtoC c))) = (a * r - m ^ 2 * c) ^ 2 + (b * r) ^ 2)
      by (unfold sqmod, Cminus, Cplus, Copp, Cmult, RtoC; cbn [fst snd]; ring).
    assert (E2 : sqmod (Cplus (Cmult (a, b) (RtoC r)) (Cmult (Cmult (RtoC m) (RtoC m)) (RtoC c))) = (a * r + m ^ 2 * c) ^ 2 + (b * r) ^ 2)
      by (unfold sqmod, Cminus, Cplus, Copp, Cmult, RtoC; cbn [fst snd]; ring).
    assert (E3 : sqmod (Cminus (Cmult (a, b) (RtoC c)) (RtoC r)) = (a * c - r) ^ 2 + (b * c) ^ 2)
      by (unfold sqmod, Cminus, Cplus, Copp, Cmult, RtoC; cbn [fst snd]; ring).
    assert (E4 : sqmod (Cplus (Cmult (a, b) (RtoC c)) (RtoC r)) = (a * c + r) ^ 2 + (b * c) ^ 2)
      by (unfold sqmod, Cminus, Cplus, Copp, Cmult, RtoC; cbn [fst snd]; ring).
    assert (Kr : 0 < a * r) by now apply Rmult_lt_0_compat.
    assert (Km : 0 <= m ^ 2 * c) by (apply Rmult_le_pos; [apply pow2_ge_0|lra]).
    assert (Kc : 0 <= a * c) by (apply Rmult_le_pos; lra).
    pose proof (pow2_ge_0 (b * r)). pose proof (pow2_ge_0 (b * c)).
    assert (D1 : 0 < (a * r + m ^ 2 * c) ^ 2) by (apply pow_lt; lra).
    assert (D2 : 0 < (a * c + r) ^ 2) by (apply pow_lt; lra).
    pose proof (pow2_ge_0 (a * r - m ^ 2 * c)). pose proof (pow2_ge_0 (a * c - r)).
    rewrite !cratio_value; rewrite ?E2, ?E4; try lra. rewrite E1, E3. eexists _, _. split; [reflexivity|].
    split; apply quot_fraction; try lra.
    + assert (0 <= (a * r) * (m ^ 2 * c)) by (apply Rmult_le_pos; lra). nra.
    + assert (0 <= a * c * r) by (apply Rmult_le_pos; lra). nra.
Qed.
