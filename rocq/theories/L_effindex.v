(** Lemmas about the effective-index formulas. *)
From Coq Require Import Lra Lia Psatz.
From Verif Require Import L_num M_refractive_index.
Open Scope R_scope.

Lemma C_eq : forall a b : C, fst a = fst b -> snd a = snd b -> a = b.
Proof. intros [a b] [c d]; cbn; intros; subst; reflexivity. Qed.

Lemma Cmod_real_nonneg : forall x, 0 <= x -> Cmod (RtoC x) = x.
Proof. intros x Hx. rewrite Cmod_R. apply Rabs_pos_eq; assumption. Qed.

Lemma Csqrt_real : forall x, 0 <= x -> Csqrt (RtoC x) = RtoC (sqrt x).
Proof.
  intros x Hx. unfold Csqrt. rewrite Cmod_real_nonneg by assumption.
  unfold RtoC; cbn [fst snd].
  replace (Rltb 0 0) with false by (symmetry; apply Rltb_false; lra).
  replace ((x + x) / 2) with x by field.
  replace ((x - x) / 2) with 0 by field. rewrite sqrt_0. reflexivity.
Qed.

Lemma Csq_R : forall x, Csq (RtoC x) = RtoC (x * x).
Proof. intros x. unfold Csq. rewrite <- RtoC_mult. reflexivity. Qed.

(** Clausius-Mossotti form of the real Maxwell-Garnett permittivity. *)
Definition mg_eps (ei em phi : R) : R :=
  em * ((2 * em + ei + 2 * phi * (ei - em)) / (2 * em + ei - phi * (ei - em))).

Lemma mg_den_pos : forall ei em phi, 0 < ei -> 0 < em -> 0 <= phi <= 1 ->
  0 < 2 * em + ei - phi * (ei - em).
Proof. intros; nra. Qed.

Lemma mg_num_pos : forall ei em phi, 0 < ei -> 0 < em -> 0 <= phi <= 1 ->
  0 < 2 * em + ei + 2 * phi * (ei - em).
Proof. intros; nra. Qed.

Lemma mg_formula_real : forall ni nm phi,
  0 < ni -> 0 < nm -> 0 <= phi <= 1 ->
  mg_formula (RtoC ni) (RtoC nm) phi = RtoC (sqrt (mg_eps (ni * ni) (nm * nm) phi)).
Proof.
  intros ni nm phi Hi Hm Hp.
  assert (Hei : 0 < ni * ni) by nra. assert (Hem : 0 < nm * nm) by nra.
  pose proof (mg_den_pos _ _ phi Hei Hem Hp) as Hd.
  pose proof (mg_num_pos _ _ phi Hei Hem Hp) as Hn.
  unfold mg_formula. rewrite !Csq_R.
  rewrite <- !RtoC_minus, <- !RtoC_mult, <- !RtoC_plus, <- RtoC_minus.
  rewrite <- RtoC_div by lra.
  rewrite Csqrt_real.
  2:{ apply Rlt_le. apply Rdiv_lt_0_compat; lra. }
  rewrite <- RtoC_mult. f_equal. unfold mg_eps.
  rewrite sqrt_mult_alt by lra. rewrite sqrt_square by lra. reflexivity.
Qed.

Lemma mg_eps_relation : forall ei em phi,
  0 < ei -> 0 < em -> 0 <= phi <= 1 ->
  (mg_eps ei em phi - em) * (ei + 2 * em) =
  phi * (ei - em) * (mg_eps ei em phi + 2 * em).
Proof.
  intros ei em phi Hi Hm Hp. pose proof (mg_den_pos _ _ phi Hi Hm Hp).
  unfold mg_eps. field. lra.
Qed.

Lemma mg_eps_pos : forall ei em phi,
  0 < ei -> 0 < em -> 0 <= phi <= 1 -> 0 < mg_eps ei em phi.
Proof.
  intros ei em phi Hi Hm Hp. unfold mg_eps.
  apply Rmult_lt_0_compat; [assumption|].
  apply Rdiv_lt_0_compat; [apply mg_num_pos | apply mg_den_pos]; assumption.
Qed.

Lemma mg_eps_diff : forall ei em p q,
  0 < ei -> 0 < em -> 0 <= p <= 1 -> 0 <= q <= 1 ->
  mg_eps ei em q - mg_eps ei em p =
  3 * em * (ei + 2 * em) * (ei - em) * (q - p)
    / ((2 * em + ei - p * (ei - em)) * (2 * em + ei - q * (ei - em))).
Proof.
  intros ei em p q Hi Hm Hp Hq.
  pose proof (mg_den_pos _ _ p Hi Hm Hp). pose proof (mg_den_pos _ _ q Hi Hm Hq).
  unfold mg_eps. field. split; lra.
Qed.

Lemma mg_eps_0 : forall ei em, 0 < ei -> 0 < em -> mg_eps ei em 0 = em.
Proof. intros. unfold mg_eps. field. lra. Qed.
Lemma mg_eps_1 : forall ei em, 0 < ei -> 0 < em -> mg_eps ei em 1 = ei.
Proof. intros. unfold mg_eps. field. lra. Qed.

Lemma mg_eps_incr : forall ei em p q,
  0 < em < ei -> 0 <= p -> p < q -> q <= 1 -> mg_eps ei em p < mg_eps ei em q.
Proof.
  intros ei em p q Hm Hp Hpq Hq.
  assert (H : 0 < mg_eps ei em q - mg_eps ei em p); [|lra].
  rewrite mg_eps_diff by lra.
  pose proof (mg_den_pos ei em p ltac:(lra) ltac:(lra) ltac:(lra)).
  pose proof (mg_den_pos ei em q ltac:(lra) ltac:(lra) ltac:(lra)).
  apply Rdiv_lt_0_compat; [|apply Rmult_lt_0_compat; lra].
  repeat apply Rmult_lt_0_compat; lra.
Qed.

Lemma mg_eps_decr : forall ei em p q,
  0 < ei < em -> 0 <= p -> p < q -> q <= 1 -> mg_eps ei em q < mg_eps ei em p.
Proof.
  intros ei em p q Hm Hp Hpq Hq.
  assert (H : 0 < - (mg_eps ei em q - mg_eps ei em p)); [|lra].
  rewrite mg_eps_diff by lra.
  pose proof (mg_den_pos ei em p ltac:(lra) ltac:(lra) ltac:(lra)).
  pose proof (mg_den_pos ei em q ltac:(lra) ltac:(lra) ltac:(lra)).
  unfold Rdiv. rewrite Ropp_mult_distr_l.
  replace (- (3 * em * (ei + 2 * em) * (ei - em) * (q - p)))
    with (3 * em * (ei + 2 * em) * (em - ei) * (q - p)) by ring.
  apply Rmult_lt_0_compat.
  - repeat apply Rmult_lt_0_compat; lra.
  - apply Rinv_0_lt_compat. apply Rmult_lt_0_compat; lra.
Qed.

Lemma mg_eps_same : forall e p, 0 < e -> mg_eps e e p = e.
Proof. intros. unfold mg_eps. field. lra. Qed.

Lemma n_eff_mg_real : forall fs ni nm phi,
  0 < ni -> 0 < nm -> 0 <= phi <= 1 ->
  n_eff fs true [RtoC ni] [RtoC nm] [phi] =
  Ok (RtoC (sqrt (mg_eps (ni * ni) (nm * nm) phi))).
Proof.
  intros. unfold n_eff. cbn [length Nat.eqb negb].
  rewrite mg_formula_real by assumption. unfold RtoC; cbn [fst snd].
  replace (Reqb 0 0) with true; [reflexivity|].
  unfold Reqb. destruct (Req_EM_T 0 0); congruence.
Qed.

Lemma mg_real_between : forall ni nm phi,
  0 < ni -> 0 < nm -> 0 <= phi <= 1 ->
  Rmin ni nm <= sqrt (mg_eps (ni * ni) (nm * nm) phi) <= Rmax ni nm.
Proof.
  intros ni nm phi Hi Hm Hp.
  assert (Hei : 0 < ni * ni) by nra. assert (Hem : 0 < nm * nm) by nra.
  assert (H : Rmin ni nm * Rmin ni nm <= mg_eps (ni * ni) (nm * nm) phi
              <= Rmax ni nm * Rmax ni nm).
  { set (e := mg_eps (ni * ni) (nm * nm) phi).
    pose proof (mg_eps_diff (ni*ni) (nm*nm) 0 phi Hei Hem ltac:(lra) Hp) as H0.
    pose proof (mg_eps_diff (ni*ni) (nm*nm) phi 1 Hei Hem Hp ltac:(lra)) as H1.
    rewrite mg_eps_0 in H0 by assumption. rewrite mg_eps_1 in H1 by assumption.
    fold e in H0, H1.
    assert (D : forall p, 0 <= p <= 1 -> 0 < 2 * (nm*nm) + ni*ni - p * (ni*ni - nm*nm))
      by (intros; apply mg_den_pos; assumption).
    assert (S0 : 0 <= (e - nm * nm) * (ni * ni - nm * nm)).
    { rewrite H0. unfold Rdiv.
      pose proof (D 0 ltac:(lra)). pose proof (D phi Hp).
      replace (3 * (nm * nm) * (ni * ni + 2 * (nm * nm)) * (ni * ni - nm * nm) * (phi - 0) *
 / ((2 * (nm * nm) + ni * ni - 0 * (ni * ni - nm * nm)) *
    (2 * (nm * nm) + ni * ni - phi * (ni * ni - nm * nm))) * (ni * ni - nm * nm))
      with ((ni * ni - nm * nm)^2 * (3 * (nm * nm) * (ni * ni + 2 * (nm * nm)) * phi *
 / ((2 * (nm * nm) + ni * ni - 0 * (ni * ni - nm * nm)) *
    (2 * (nm * nm) + ni * ni - phi * (ni * ni - nm * nm))))) by ring.
      apply Rmult_le_pos; [apply pow2_ge_0|].
      apply Rmult_le_pos; [repeat apply Rmult_le_pos; nra|].
      left; apply Rinv_0_lt_compat. apply Rmult_lt_0_compat; lra. }
    assert (S1 : 0 <= (ni * ni - e) * (ni * ni - nm * nm)).
    { rewrite H1. unfold Rdiv.
      pose proof (D 1 ltac:(lra)). pose proof (D phi Hp).
      replace (3 * (nm * nm) * (ni * ni + 2 * (nm * nm)) * (ni * ni - nm * nm) * (1 - phi) *
 / ((2 * (nm * nm) + ni * ni - phi * (ni * ni - nm * nm)) *
    (2 * (nm * nm) + ni * ni - 1 * (ni * ni - nm * nm))) * (ni * ni - nm * nm))
      with ((ni * ni - nm * nm)^2 * (3 * (nm * nm) * (ni * ni + 2 * (nm * nm)) * (1 - phi) *
 / ((2 * (nm * nm) + ni * ni - phi * (ni * ni - nm * nm)) *
    (2 * (nm * nm) + ni * ni - 1 * (ni * ni - nm * nm))))) by ring.
      apply Rmult_le_pos; [apply pow2_ge_0|].
      apply Rmult_le_pos; [repeat apply Rmult_le_pos; nra|].
      left; apply Rinv_0_lt_compat. apply Rmult_lt_0_compat; lra. }
    destruct (Rtotal_order ni nm) as [L|[E|G]].
    - rewrite Rmin_left, Rmax_right by lra.
      assert (ni * ni - nm * nm < 0) by nra. nra.
    - subst nm. rewrite Rmin_left, Rmax_left by lra.
      unfold e. rewrite mg_eps_same by assumption. lra.
    - rewrite Rmin_right, Rmax_left by lra.
      assert (0 < ni * ni - nm * nm) by nra. nra. }
  assert (0 < Rmin ni nm) by (apply Rmin_glb_lt; lra).
  assert (0 < Rmax ni nm) by (pose proof (Rmax_l ni nm); lra).
  split.
  - rewrite <- (sqrt_square (Rmin ni nm)) by lra. apply sqrt_le_1_alt. tauto.
  - rewrite <- (sqrt_square (Rmax ni nm)) by lra. apply sqrt_le_1_alt. tauto.
Qed.

(** ** Absorbing constituents. *)

Lemma Cmod_sq : forall z : C, Cmod z * Cmod z = fst z * fst z + snd z * snd z.
Proof.
  intros [a b]. unfold Cmod; cbn [fst snd]. rewrite sqrt_sqrt; [ring | nra].
Qed.

Lemma Cmod_ge_re : forall z : C, - Cmod z <= fst z <= Cmod z.
Proof.
  intros z. pose proof (Cmod_sq z). pose proof (Cmod_ge_0 z).
  pose proof (Rle_0_sqr (snd z)). unfold Rsqr in *. nra.
Qed.

Lemma Csqrt_sq : forall z, Csq (Csqrt z) = z.
Proof.
  intros z. pose proof (Cmod_ge_re z) as Hm. pose proof (Cmod_sq z) as Hs.
  assert (A : 0 <= (Cmod z + fst z) / 2) by lra.
  assert (B : 0 <= (Cmod z - fst z) / 2) by lra.
  assert (AB : sqrt ((Cmod z + fst z) / 2) * sqrt ((Cmod z - fst z) / 2)
               = Rabs (snd z) / 2).
  { rewrite <- sqrt_mult by assumption.
    replace ((Cmod z + fst z) / 2 * ((Cmod z - fst z) / 2))
      with (Rsqr (snd z / 2)) by (unfold Rsqr; nra).
    rewrite sqrt_Rsqr_abs. unfold Rdiv. rewrite Rabs_mult.
    rewrite (Rabs_pos_eq (/ 2)); lra. }
  apply C_eq; unfold Csq, Csqrt, Cmult; cbn [fst snd].
  - destruct (Rltb (snd z) 0);
      [replace (- sqrt ((Cmod z - fst z) / 2) * - sqrt ((Cmod z - fst z) / 2))
         with (sqrt ((Cmod z - fst z) / 2) * sqrt ((Cmod z - fst z) / 2)) by ring|];
      rewrite !sqrt_sqrt by assumption; lra.
  - destruct (Rltb (snd z) 0) eqn:E.
    + apply Rltb_true in E. rewrite Rabs_left in AB by lra. lra.
    + apply Rltb_false in E. rewrite Rabs_pos_eq in AB by lra. lra.
Qed.

Lemma Csqrt_re : forall z, 0 <= fst (Csqrt z).
Proof. intros z. unfold Csqrt; cbn [fst]. apply sqrt_pos. Qed.

Lemma Csqrt_im_neg : forall z, snd (Csqrt z) < 0 -> snd z < 0.
Proof.
  intros z. unfold Csqrt; cbn [snd]. destruct (Rltb (snd z) 0) eqn:E.
  - apply Rltb_true in E. auto.
  - pose proof (sqrt_pos ((Cmod z - fst z) / 2)). lra.
Qed.

(** An index with positive real part and no gain. *)
Lemma passive_sq : forall z : C, 0 < fst z -> 0 <= snd z ->
  0 <= snd (Csq z) /\ (snd (Csq z) = 0 -> 0 < fst (Csq z)).
Proof.
  intros [u v]; unfold Csq, Cmult; cbn [fst snd]; intros Hu Hv. split; [nra|].
  intros H. assert (v = 0) by nra. subst. nra.
Qed.

Lemma mg_den_nonzero : forall (a m : C) (s t : R),
  0 <= snd a -> (snd a = 0 -> 0 < fst a) ->
  0 <= snd m -> (snd m = 0 -> 0 < fst m) ->
  0 <= s -> 0 <= t -> 0 < s + t ->
  0 < (s * fst a + t * fst m) ^ 2 + (s * snd a + t * snd m) ^ 2.
Proof.
  intros [x y] [p q] s t Hy Hx Hq Hp Hs Ht Hst; cbn [fst snd] in *.
  destruct (Rle_lt_or_eq_dec 0 (s * y + t * q)) as [G|E]; [nra| |].
  - assert (0 < (s * y + t * q) ^ 2) by (apply pow_lt; assumption).
    pose proof (pow2_ge_0 (s * x + t * p)). lra.
  - assert (E1 : s * y = 0) by nra. assert (E2 : t * q = 0) by nra.
    assert (G : 0 < s * x + t * p).
    { destruct (Rle_lt_or_eq_dec 0 s Hs) as [Ls|Es].
      - assert (y = 0) by nra. specialize (Hx H).
        destruct (Rle_lt_or_eq_dec 0 t Ht) as [Lt|Et].
        + assert (q = 0) by nra. specialize (Hp H0). nra.
        + subst t. nra.
      - subst s. assert (q = 0) by nra. specialize (Hp H). nra. }
    assert (0 < (s * x + t * p) ^ 2) by (apply pow_lt; assumption).
    pose proof (pow2_ge_0 (s * y + t * q)). lra.
Qed.

(** The imaginary part of [m * N / D] times [|D|^2]. *)
Lemma mg_passive_poly : forall p q x y phi,
  0 <= q -> 0 <= y -> 0 <= phi <= 1 ->
  0 <= (1 + 2 * phi) * (1 - phi) * q * (x * x + y * y)
       + (1 + 2 * phi) * (2 + phi) * y * (p * p + q * q)
       + 2 * (1 - phi) ^ 2 * (2 * p * q * x - (p * p - q * q) * y)
       + 2 * (1 - phi) * (2 + phi) * q * (p * p + q * q).
Proof.
  intros p q x y f Hq Hy Hf.
  assert (A : 0 <= y * ((1 + 2 * f) * (2 + f) * (p * p + q * q)
                        - 2 * (1 - f) ^ 2 * (p * p - q * q))).
  { apply Rmult_le_pos; [assumption|].
    replace ((1 + 2 * f) * (2 + f) * (p * p + q * q) - 2 * (1 - f) ^ 2 * (p * p - q * q))
      with (p * p * (9 * f) + q * q * ((1 + 2 * f) * (2 + f) + 2 * (1 - f) ^ 2)) by ring.
    apply Rplus_le_le_0_compat; apply Rmult_le_pos; nra. }
  assert (B : 0 <= (1 - f) * q * ((1 + 2 * f) * (x * x + y * y)
                   + 2 * (2 + f) * (p * p + q * q) + 4 * (1 - f) * (p * x))).
  { apply Rmult_le_pos; [apply Rmult_le_pos; lra|].
    assert (0 <= (x + 2 * p) ^ 2) by apply pow2_ge_0.
    assert (0 <= (x + p)^2 * f) by (apply Rmult_le_pos; [apply pow2_ge_0 | lra]).
    assert (0 <= (x - p)^2 * f) by (apply Rmult_le_pos; [apply pow2_ge_0 | lra]).
    assert (0 <= (x - 2*p)^2 * f) by (apply Rmult_le_pos; [apply pow2_ge_0 | lra]).
    nra. }
  nra.
Qed.

Lemma mg_formula_passive : forall ni nm phi,
  0 < fst ni -> 0 <= snd ni -> 0 < fst nm -> 0 <= snd nm -> 0 <= phi <= 1 ->
  0 <= fst (mg_formula ni nm phi) /\ 0 <= snd (mg_formula ni nm phi).
Proof.
  intros ni nm phi Hi1 Hi2 Hm1 Hm2 Hp.
  destruct (passive_sq ni Hi1 Hi2) as [Ay Ax].
  destruct (passive_sq nm Hm1 Hm2) as [Mq Mp].
  unfold mg_formula.
  set (a := Csq ni) in *. set (m := Csq nm) in *.
  set (Nn := Cplus (Cplus (Cmult (RtoC 2) m) a) (Cmult (RtoC (2 * phi)) (Cminus a m))).
  set (Dd := Cminus (Cplus (Cmult (RtoC 2) m) a) (Cmult (RtoC phi) (Cminus a m))).
  set (s := Csqrt (Cdiv Nn Dd)).
  pose proof (mg_den_nonzero a m (1 - phi) (2 + phi) Ay Ax Mq Mp
                ltac:(lra) ltac:(lra) ltac:(lra)) as HD.
  assert (ED1 : fst Dd = (1 - phi) * fst a + (2 + phi) * fst m)
    by (unfold Dd, Cminus, Cplus, Cmult, Copp, RtoC; cbn [fst snd]; ring).
  assert (ED2 : snd Dd = (1 - phi) * snd a + (2 + phi) * snd m)
    by (unfold Dd, Cminus, Cplus, Cmult, Copp, RtoC; cbn [fst snd]; ring).
  assert (EN1 : fst Nn = (1 + 2 * phi) * fst a + 2 * (1 - phi) * fst m)
    by (unfold Nn, Cminus, Cplus, Cmult, Copp, RtoC; cbn [fst snd]; ring).
  assert (EN2 : snd Nn = (1 + 2 * phi) * snd a + 2 * (1 - phi) * snd m)
    by (unfold Nn, Cminus, Cplus, Cmult, Copp, RtoC; cbn [fst snd]; ring).
  rewrite <- ED1, <- ED2 in HD.
  assert (Ssq : Csq s = Cdiv Nn Dd) by apply Csqrt_sq.
  assert (Im2 : 0 <= snd (Cmult m (Cdiv Nn Dd))).
  { assert (E : snd (Cmult m (Cdiv Nn Dd)) =
       ((1 + 2 * phi) * (1 - phi) * snd m * (fst a * fst a + snd a * snd a)
       + (1 + 2 * phi) * (2 + phi) * snd a * (fst m * fst m + snd m * snd m)
       + 2 * (1 - phi) ^ 2 * (2 * fst m * snd m * fst a
           - (fst m * fst m - snd m * snd m) * snd a)
       + 2 * (1 - phi) * (2 + phi) * snd m * (fst m * fst m + snd m * snd m))
       / (fst Dd ^ 2 + snd Dd ^ 2)).
    { unfold Cdiv, Cinv, Cmult; cbn [fst snd]. rewrite EN1, EN2.
      replace (fst Dd / (fst Dd ^ 2 + snd Dd ^ 2)) with
        (((1 - phi) * fst a + (2 + phi) * fst m) / (fst Dd ^ 2 + snd Dd ^ 2))
        by (rewrite <- ED1; reflexivity).
      replace (- snd Dd / (fst Dd ^ 2 + snd Dd ^ 2)) with
        (- ((1 - phi) * snd a + (2 + phi) * snd m) / (fst Dd ^ 2 + snd Dd ^ 2))
        by (rewrite <- ED2; reflexivity).
      field. lra. }
    rewrite E. apply Rmult_le_pos; [apply mg_passive_poly; assumption|].
    left; apply Rinv_0_lt_compat; assumption. }
  assert (Esq : Csq (Cmult nm s) = Cmult m (Cdiv Nn Dd)).
  { rewrite <- Ssq. unfold m, Csq. ring. }
  rewrite <- Esq in Im2.
  pose proof (Csqrt_re (Cdiv Nn Dd)) as S1. fold s in S1.
  pose proof (Csqrt_im_neg (Cdiv Nn Dd)) as S2. fold s in S2. rewrite <- Ssq in S2.
  clearbody s. clear Ssq Esq.
  destruct nm as [u v], s as [s1 s2]. unfold Csq, Cmult in *; cbn [fst snd] in *.
  destruct (Rle_lt_dec 0 s2) as [P|Ng].
  - assert (K : 0 <= u * s2 + v * s1) by nra.
    split; [|assumption].
    destruct (Rle_lt_or_eq_dec _ _ K) as [L|E]; [nra|].
    assert (u * s2 = 0) by nra. assert (s2 = 0) by nra. subst s2. nra.
  - assert (K : 0 <= u * s1 - v * s2) by nra.
    split; [assumption|].
    destruct (Rle_lt_or_eq_dec _ _ K) as [L|E]; [nra|].
    assert (u * s1 = 0) by nra. assert (s1 = 0) by nra. subst s1.
    specialize (S2 Ng). nra.
Qed.
