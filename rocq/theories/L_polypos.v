(** The normalisation of the polydisperse structure factor never vanishes. *)
From Verif Require Import Num L_num M_structure L_poly L_polylim.
From Coq Require Import Lra Lia Psatz.
From Coquelicot Require Import Complex.
Open Scope R_scope.

Lemma falls f f' v : 0 < v < 1 -> f 1 = 0 -> (forall c, v <= c <= 1 -> derivable_pt_lim f c (f' c)) ->
  (forall c, v < c < 1 -> f' c < 0) -> 0 < f v.
Proof.
  intros Hv H1 D N. destruct (MVT_cor2 f f' v 1 (proj2 Hv) D) as (c & E & Hc). specialize (N c Hc).
  rewrite H1 in E. nra.
Qed.
Lemma rises f f' v : 0 < v < 1 -> f 1 = 0 -> (forall c, v <= c <= 1 -> derivable_pt_lim f c (f' c)) ->
  (forall c, v < c < 1 -> 0 < f' c) -> f v < 0.
Proof.
  intros Hv H1 D N. destruct (MVT_cor2 f f' v 1 (proj2 Hv) D) as (c & E & Hc). specialize (N c Hc).
  rewrite H1 in E. nra.
Qed.

(** A combination of three powers and a quadratic, and its derivative. *)
Definition tri (A B D e c0 c1 c2 v : R) : R :=
  A * Rpower v e + B * Rpower v (e + 1) + D * Rpower v (e + 2) + (c0 + c1 * v + c2 * (v * v)).
Lemma tri_deriv A B D e c0 c1 c2 v : 0 < v ->
  derivable_pt_lim (tri A B D e c0 c1 c2) v (tri (A * e) (B * (e + 1)) (D * (e + 2)) (e - 1) c1 (2 * c2) 0 v).
Proof.
  intros Hv. unfold tri.
  replace (A * e * Rpower v (e - 1) + B * (e + 1) * Rpower v (e - 1 + 1) + D * (e + 2) * Rpower v (e - 1 + 2) + (c1 + 2 * c2 * v + 0 * (v * v)))
    with (A * (e * Rpower v (e - 1)) + B * ((e + 1) * Rpower v (e + 1 - 1)) + D * ((e + 2) * Rpower v (e + 2 - 1)) + ((0 + c1 * 1) + c2 * (1 * v + v * 1))).
  2:{ replace (e - 1 + 1) with (e + 1 - 1) by ring. replace (e - 1 + 2) with (e + 2 - 1) by ring. ring. }
  apply (derivable_pt_lim_plus (fun v => A * Rpower v e + B * Rpower v (e + 1) + D * Rpower v (e + 2)) (fun v => c0 + c1 * v + c2 * (v * v))).
  - apply (derivable_pt_lim_plus (fun v => A * Rpower v e + B * Rpower v (e + 1)) (fun v => D * Rpower v (e + 2))).
    + apply (derivable_pt_lim_plus (fun v => A * Rpower v e) (fun v => B * Rpower v (e + 1))).
      * apply (derivable_pt_lim_scal (fun v => Rpower v e)). now apply derivable_pt_lim_power.
      * apply (derivable_pt_lim_scal (fun v => Rpower v (e + 1))). now apply derivable_pt_lim_power.
    + apply (derivable_pt_lim_scal (fun v => Rpower v (e + 2))). now apply derivable_pt_lim_power.
  - apply (derivable_pt_lim_plus (fun v => c0 + c1 * v) (fun v => c2 * (v * v))).
    + apply (derivable_pt_lim_plus (fun _ => c0) (fun v => c1 * v)); [apply derivable_pt_lim_const|].
      apply (derivable_pt_lim_scal (fun v => v)). apply derivable_pt_lim_id.
    + apply (derivable_pt_lim_scal (fun v => v * v)). apply (derivable_pt_lim_mult (fun v => v) (fun v => v)); apply derivable_pt_lim_id.
Qed.
Lemma Rpower_base1 e : Rpower 1 e = 1.
Proof. unfold Rpower. rewrite ln_1, Rmult_0_r. apply exp_0. Qed.
Lemma tri_1 A B D e c0 c1 c2 : tri A B D e c0 c1 c2 1 = A + B + D + (c0 + c1 + c2).
Proof. unfold tri. rewrite !Rpower_base1. ring. Qed.
Lemma tri_scale A B D e v : 0 < v -> tri A B D e 0 0 0 v = Rpower v e * (A + B * v + D * (v * v)).
Proof.
  intros Hv. unfold tri. rewrite !Rpower_plus, Rpower_1 by exact Hv. replace 2 with (1 + 1) by lra. rewrite Rpower_plus, Rpower_1 by exact Hv. ring.
Qed.

(** The key inequality: [T] = 1/pdi^2, [v] = cos^2 of the phase. *)
Lemma schulz_gap T v : 0 < T -> 0 < v < 1 ->
  let k := T * (T + 1) / 4 in let w := 1 - v in
  1 + T * (T + 3) / 2 * w + (k * k + 2 * k * (T + 2)) * (w * w) < (1 + (k - 1) * w) ^ 2 * Rpower v (- (T + 2)).
Proof.
  intros HT Hv k w. set (a := T + 2). set (m := k - 1). set (l1 := T * (T + 3) / 2). set (l2 := k * k + 2 * k * a).
  assert (Hk : 0 < k) by (unfold k; nra).
  (* H = k² v^-a - 2km v^(1-a) + m² v^(2-a) - L(1-v) *)
  set (A := k * k). set (B := - 2 * k * m). set (D := m * m).
  assert (H : 0 < tri A B D (- a) (- 1 - l1 - l2) (l1 + 2 * l2) (- l2) v).
  { apply (falls _ (tri (A * (- a)) (B * (- a + 1)) (D * (- a + 2)) (- a - 1) (l1 + 2 * l2) (2 * (- l2)) 0)); [exact Hv| | |].
    - rewrite tri_1. unfold A, B, D, m. ring.
    - intros c Hc. apply tri_deriv. lra.
    - intros c Hc.
      apply (rises _ (tri (A * - a * (- a - 1)) (B * (- a + 1) * (- a - 1 + 1)) (D * (- a + 2) * (- a - 1 + 2)) (- a - 1 - 1) (2 * (- l2)) (2 * 0) 0)); [lra| | |].
      + rewrite tri_1. unfold A, B, D, m, l1, l2, a, k. field.
      + intros c' Hc'. apply tri_deriv. lra.
      + intros c' Hc'.
        apply (falls _ (tri (A * - a * (- a - 1) * (- a - 1 - 1)) (B * (- a + 1) * (- a - 1 + 1) * (- a - 1 - 1 + 1)) (D * (- a + 2) * (- a - 1 + 2) * (- a - 1 - 1 + 2)) (- a - 1 - 1 - 1) (2 * 0) (2 * 0) 0)); [lra| | |].
        * rewrite tri_1. unfold A, B, D, m, l2, a, k. field.
        * intros x Hx. apply tri_deriv. lra.
        * intros x Hx. rewrite Rmult_0_r. rewrite tri_scale by lra.
          assert (Hp : 0 < Rpower x (- a - 1 - 1 - 1)) by (unfold Rpower; apply exp_pos).
          set (E := (_ + _ + _)).
          assert (EE : - E = a * ((a + 1) * (a + 2) * (k * k) - 2 * k * (m * x) * ((a - 1) * (a + 1)) + (m * x) * (m * x) * ((a - 2) * (a - 1)))).
          { unfold E, A, B, D. ring. }
          assert (Hin : 0 < (a + 1) * (a + 2) * (k * k) - 2 * k * (m * x) * ((a - 1) * (a + 1)) + (m * x) * (m * x) * ((a - 2) * (a - 1))).
          { set (z := m * x). assert (Hz : z < k). { unfold z. destruct (Rle_lt_dec m 0) as [L|L]; [assert (m * x <= 0) by nra; lra|]. assert (m * x < m) by nra. unfold m in *. lra. }
            replace (a - 2) with T by (unfold a; ring). replace (a - 1) with (T + 1) by (unfold a; ring).
            replace (a + 1) with (T + 3) by (unfold a; ring). replace (a + 2) with (T + 4) by (unfold a; ring).
            set (g := k - z). assert (Hg : 0 < g) by (unfold g; lra).
            replace z with (k - g) by (unfold g; ring).
            replace ((T + 3) * (T + 4) * (k * k) - 2 * k * (k - g) * ((T + 1) * (T + 3)) + (k - g) * (k - g) * (T * (T + 1)))
              with (6 * (k * k) + 6 * (T + 1) * (k * g) + T * (T + 1) * (g * g)) by ring.
            assert (0 < k * k) by nra. assert (0 < k * g) by nra. assert (0 < g * g) by nra. assert (0 < T * (T + 1)) by nra.
            assert (0 < (T + 1) * (k * g)) by (apply Rmult_lt_0_compat; lra). assert (0 < T * (T + 1) * (g * g)) by (now apply Rmult_lt_0_compat). lra. }
          assert (Ha : 0 < a) by (unfold a; lra). assert (0 < - E) by (rewrite EE; now apply Rmult_lt_0_compat). nra. }
  assert (S1 : tri A B D (- a) (- 1 - l1 - l2) (l1 + 2 * l2) (- l2) v
    = tri A B D (- a) 0 0 0 v - (1 + l1 * w + l2 * (w * w))) by (unfold tri, w; ring).
  rewrite S1, tri_scale in H by lra.
  replace ((1 + m * w) ^ 2 * Rpower v (- a)) with (Rpower v (- a) * (A + B * v + D * (v * v))); [lra|].
  rewrite Rmult_comm. f_equal. unfold A, B, D, m, w. ring.
Qed.

(** The transforms in polar form: [T] = t + 1. *)
Section Polar.
Variables (q : R) (k : species).
Hypothesis (Hpd : 0 < sp_pdi k) (Hd : 0 < sp_d k) (Hq : q <> 0).
Local Notation T := (sp_t k + 1).
Local Notation y := (q * sp_d k).
Local Notation th := (atan (y / T)).
Local Notation P := (Rpower (sqrt (1 + (y / T) ^ 2)) (- T)).
Local Notation r := (sqrt (1 + (y / T) ^ 2)).
Lemma T_pos : 0 < T.
Proof. rewrite sp_t1. apply Rinv_0_lt_compat, Dsigma_pos, Hpd. Qed.
Lemma r_pos : 0 < r.
Proof. apply sqrt_lt_R0. pose proof (pow2_ge_0 (y / T)). lra. Qed.
Lemma Rpow_split m : Rpower r (- (T + m)) = P * Rpower r (- m).
Proof. rewrite <- Rpower_plus. f_equal. ring. Qed.
Lemma fm_plus tm m : fm (sp_x q k) (sp_t k) tm m = (tm * (P * Rpower r (- m)) * cos ((T + m) * th), - (tm * (P * Rpower r (- m)) * sin ((T + m) * th))).
Proof.
  pose proof T_pos as HT. unfold fm.
  assert (Ez : Cplus (RtoC 1) (Cdiv (sp_x q k) (RtoC T)) = (1, y / T)).
  { unfold sp_x, Cdiv. rewrite <- RtoC_inv by lra. unfold Cplus, Cmult, RtoC, Rdiv. cbn [fst snd]. apply (f_equal2 pair); ring. }
  rewrite Ez. unfold Cpow_r. cbv zeta. unfold Cmod. cbn [fst snd]. replace (1 ^ 2 + (y / T) ^ 2) with (1 + (y / T) ^ 2) by ring.
  replace (y / T / 1) with (y / T) by (field; lra). rewrite Rpow_split.
  replace ((- (T + m)) * th) with (- ((T + m) * th)) by ring. rewrite cos_neg, sin_neg. unfold Cmult, RtoC. cbn [fst snd].
  apply (f_equal2 pair); ring.
Qed.
Lemma fm_minus tm m : fm (- sp_x q k)%C (sp_t k) tm m = (tm * (P * Rpower r (- m)) * cos ((T + m) * th), tm * (P * Rpower r (- m)) * sin ((T + m) * th)).
Proof.
  pose proof T_pos as HT. unfold fm.
  assert (Ez : Cplus (RtoC 1) (Cdiv (Copp (sp_x q k)) (RtoC T)) = (1, - (y / T))).
  { unfold sp_x, Cdiv. rewrite <- RtoC_inv by lra. unfold Cplus, Cmult, Copp, RtoC, Rdiv. cbn [fst snd]. apply (f_equal2 pair); ring. }
  rewrite Ez. unfold Cpow_r. cbv zeta. unfold Cmod. cbn [fst snd]. replace (1 ^ 2 + (- (y / T)) ^ 2) with (1 + (y / T) ^ 2) by ring.
  replace (- (y / T) / 1) with (- (y / T)) by (field; lra). rewrite atan_opp. rewrite Rpow_split.
  replace ((- (T + m)) * - th) with ((T + m) * th) by ring. unfold Cmult, RtoC. cbn [fst snd].
  apply (f_equal2 pair); ring.
Qed.

Definition bracket : C :=
  (1 - 1 / 2 * (sp_f0i q k + sp_f0 q k) + sp_x q k / 2 * (sp_f1i q k - sp_f1 q k)
   - ((0%R, q) * (0%R, q) * (sp_d k * sp_d k)) / 8 * (sp_f2i q k + sp_f2 q k + 2 * sp_t2 k))%C.

Lemma tm0 : tm_prod 0 (sp_t k) = 1.
Proof. unfold tm_prod. cbn. field. Qed.
Lemma tm1 : tm_prod 1 (sp_t k) = 1.
Proof. pose proof T_pos. unfold tm_prod. cbn [map seq fold_right]. replace (INR 1) with 1 by reflexivity. rewrite pow_1, Rmult_1_r, Rplus_comm. apply Rinv_r. lra. Qed.
Lemma t2_T : sp_t2 k = (T + 1) / T.
Proof.
  unfold sp_t2. rewrite sp_t1. pose proof (Dsigma_pos k Hpd). field. lra.
Qed.
Lemma RP0 : Rpower r (- 0) = 1.
Proof. rewrite Ropp_0. apply Rpower_O, r_pos. Qed.
Lemma RP1 : Rpower r (- (1)) = / r.
Proof. rewrite Rpower_Ropp, Rpower_1 by apply r_pos. reflexivity. Qed.
Lemma RP2 : Rpower r (- (2)) = / r * / r.
Proof.
  replace (- (2)) with (- (1) + - (1)) by lra. rewrite Rpower_plus. change (-1) with (- (1)). rewrite RP1. reflexivity.
Qed.

Lemma br_alg (a0 b0 a1 b1 a2 b2 d t2 : R) :
  (1 - 1 / 2 * ((a0, b0) + (a0, (- b0)%R)) + ((0%R, q) * RtoC d) / 2 * ((a1, b1) - (a1, (- b1)%R))
   - ((0%R, q) * (0%R, q) * (RtoC d * RtoC d)) / 8 * ((a2, b2) + (a2, (- b2)%R) + 2 * RtoC t2))%C
  = RtoC (1 - a0 - q * d * b1 + (q * d) ^ 2 / 4 * (a2 + t2)).
Proof.
  unfold Cdiv. rewrite <- !RtoC_inv by lra. unfold Cminus, Cplus, Copp, Cmult, RtoC. cbn [fst snd].
  apply (f_equal2 pair); field.
Qed.
Lemma bracket_real : bracket = RtoC (1 - P * cos (T * th) - y * (P / r) * sin ((T + 1) * th)
   + y ^ 2 / 4 * sp_t2 k * (1 + P / r / r * cos ((T + 2) * th))).
Proof.
  unfold bracket, sp_f0, sp_f1, sp_f2, sp_f0i, sp_f1i, sp_f2i. rewrite !fm_plus, !fm_minus, tm0, tm1, RP0, RP1, RP2, Rplus_0_r.
  unfold sp_x. rewrite br_alg. apply (f_equal RtoC). unfold Rdiv. ring.
Qed.

Lemma bracket_pos : exists b, 0 < b /\ bracket = RtoC b.
Proof.
  rewrite bracket_real. eexists. split; [|reflexivity].
  pose proof T_pos as HT. pose proof r_pos as Hr. rewrite t2_T.
  set (T := sp_t k + 1) in *. set (tau := y / T). assert (Htau : tau <> 0) by (unfold tau, Rdiv; apply Rmult_integral_contrapositive_currified; [apply Rmult_integral_contrapositive_currified; lra|apply Rinv_neq_0_compat; lra]).
  fold tau in Hr. set (rr := sqrt (1 + tau ^ 2)) in *. set (t := atan tau).
  assert (Hy : y = T * tau) by (unfold tau; field; lra). rewrite Hy. clearbody tau.
  assert (Hr2 : rr * rr = 1 + tau ^ 2) by (unfold rr; apply sqrt_sqrt; pose proof (pow2_ge_0 tau); lra).
  set (cc := / rr). set (ss := tau / rr).
  assert (Hcos : cos t = cc). { unfold t, cc, rr. rewrite cos_atan. unfold Rdiv. rewrite Rmult_1_l. repeat f_equal. unfold Rsqr. ring. }
  assert (Hsin : sin t = ss). { unfold t, ss, rr. rewrite sin_atan. repeat f_equal. unfold Rsqr. ring. }
  set (kk := T * (T + 1) / 4). set (PP := Rpower rr (- T)).
  set (v := cc * cc). set (w := ss * ss).
  assert (Hvw : v + w = 1). { unfold v, w, cc, ss. apply (Rmult_eq_reg_r (rr * rr)); [|nra]. unfold Rdiv.
    replace ((/ rr * / rr + tau * / rr * (tau * / rr)) * (rr * rr)) with (1 + tau ^ 2) by (field; lra). lra. }
  assert (Htau2 : 0 < tau ^ 2) by (rewrite <- Rsqr_pow2; now apply Rlt_0_sqr).
  assert (Hcc : 0 < cc) by (now apply Rinv_0_lt_compat).
  assert (Hv : 0 < v) by (unfold v; nra).
  assert (Hw : 0 < w). { unfold w, ss. replace (tau / rr * (tau / rr)) with (tau ^ 2 * v) by (unfold v, cc; field; lra). now apply Rmult_lt_0_compat. }
  pose proof (schulz_gap T v HT ltac:(lra)) as Gap. cbv zeta in Gap. fold kk in Gap. replace (1 - v) with w in Gap by lra.
  (* the phase *)
  set (al := (T + 1) * t).
  replace (cos (T * t)) with (cos al * cc + sin al * ss).
  2:{ rewrite <- Hcos, <- Hsin, <- cos_minus. f_equal. unfold al. ring. }
  replace (cos ((T + 2) * t)) with (cos al * cc - sin al * ss).
  2:{ rewrite <- Hcos, <- Hsin, <- cos_plus. f_equal. unfold al. ring. }
  set (A := cc * (1 - kk * w)). set (B := ss * (1 + T + kk * w)).
  assert (Eb : 1 - PP * (cos al * cc + sin al * ss) - T * tau * (PP / rr) * sin al + (T * tau) ^ 2 / 4 * ((T + 1) / T) * (1 + PP / rr / rr * (cos al * cc - sin al * ss))
    = 1 + kk * tau ^ 2 - PP * (A * cos al + B * sin al)).
  { unfold A, B, kk, w, ss, cc. field. split; lra. }
  rewrite Eb. clear Eb.
  set (N := A * cos al + B * sin al).
  assert (HN : N ^ 2 <= A ^ 2 + B ^ 2).
  { unfold N. pose proof (sin2_cos2 al) as SC. unfold Rsqr in SC. set (x := cos al) in *. set (z := sin al) in *. 
    assert (0 <= (A * z - B * x) ^ 2) by apply pow2_ge_0. 
    replace (A ^ 2 + B ^ 2) with ((A ^ 2 + B ^ 2) * (z * z + x * x)) by (rewrite SC; ring). 
    replace ((A ^ 2 + B ^ 2) * (z * z + x * x)) with ((A * x + B * z) ^ 2 + (A * z - B * x) ^ 2) by ring. lra. }
  assert (HAB : A ^ 2 + B ^ 2 = 1 + T * (T + 3) / 2 * w + (kk * kk + 2 * kk * (T + 2)) * (w * w)).
  { replace (A ^ 2 + B ^ 2) with (v * (1 - kk * w) ^ 2 + w * (1 + T + kk * w) ^ 2) by (unfold A, B, v, w; ring).
    replace v with (1 - w) by lra. unfold kk. field. }
  assert (HP : 0 < PP) by (unfold PP, Rpower; apply exp_pos).
  assert (HP2 : PP * PP * Rpower v (- (T + 2)) * (v * v) = 1).
  { assert (Ev : v = Rpower rr (- (2))). { replace (- (2)) with (- (1) + - (1)) by lra. rewrite Rpower_plus. change (-1) with (- (1)). rewrite Rpower_Ropp, Rpower_1 by exact Hr. reflexivity. }
    rewrite Ev, Rpower_mult. unfold PP. rewrite <- !Rpower_plus. replace (- T + - T + - (2) * - (T + 2) + (- (2) + - (2))) with 0 by ring. now apply Rpower_O. }
  assert (E1 : 1 + kk * tau ^ 2 = (1 + (kk - 1) * w) / v).
  { apply (Rmult_eq_reg_r v); [|lra]. replace ((1 + (kk - 1) * w) / v * v) with (1 + (kk - 1) * w) by (field; lra).
    replace w with (tau ^ 2 * v) by (unfold w, ss, v, cc; field; lra).
    assert (v * (1 + tau ^ 2) = 1) by (unfold v, cc; rewrite <- Hr2; field; lra). 
    replace (1 + (kk - 1) * (tau ^ 2 * v)) with (v * (1 + tau ^ 2) + (kk - 1) * (tau ^ 2 * v)) by lra. ring. }
  assert (Hkk : 0 < kk) by (unfold kk; apply Rmult_lt_0_compat; [apply Rmult_lt_0_compat|]; lra).
  assert (HR : 0 < 1 + kk * tau ^ 2) by (assert (0 < kk * tau ^ 2) by (now apply Rmult_lt_0_compat); lra).
  assert (Hfin : (PP * N) ^ 2 < (1 + kk * tau ^ 2) ^ 2).
  { apply Rle_lt_trans with (PP * PP * (A ^ 2 + B ^ 2)).
    - replace ((PP * N) ^ 2) with (PP * PP * N ^ 2) by ring. apply Rmult_le_compat_l; [nra|exact HN].
    - rewrite HAB. apply Rlt_le_trans with (PP * PP * ((1 + (kk - 1) * w) ^ 2 * Rpower v (- (T + 2)))); [apply Rmult_lt_compat_l; [nra|exact Gap]|].
      right. rewrite E1. replace (PP * PP * ((1 + (kk - 1) * w) ^ 2 * Rpower v (- (T + 2)))) with ((PP * PP * Rpower v (- (T + 2)) * (v * v)) * ((1 + (kk - 1) * w) ^ 2 / (v * v))) by (field; lra).
      rewrite HP2. field. lra. }
  assert (PP * N < 1 + kk * tau ^ 2); [|lra].
  destruct (Rle_lt_dec (1 + kk * tau ^ 2) (PP * N)) as [L|L]; [|exact L]. exfalso.
  assert ((1 + kk * tau ^ 2) ^ 2 <= (PP * N) ^ 2) by (apply pow_incr; lra). lra.
Qed.
End Polar.

Lemma I0_eq q phi l : I0 q phi l = Cmult (- (9 / 2) * (two_s q * two_s q * two_s q * two_s q * two_s q * two_s q) * (poly_rho phi l * poly_rho phi l))%C
  (Csum (map (fun k => Cmult (sp_c k) (bracket q k)) l)).
Proof.
  unfold I0. rewrite (Csum_scale species (RtoC (poly_rho phi l) * RtoC (poly_rho phi l))%C (fun k => Cmult (sp_c k) (bracket q k))).
  - ring.
  - intros k _. unfold bracket, sp_x. ring.
Qed.
Lemma brackets_pos q l : q <> 0 -> Forall good_sp l -> (forall k, In k l -> 0 < sp_pdi k) -> (exists k, In k l /\ 0 < sp_c k) ->
  exists b, 0 < b /\ Csum (map (fun k => Cmult (sp_c k) (bracket q k)) l) = RtoC b.
Proof.
  intros Hq.
  assert (N : forall ks, Forall good_sp ks -> (forall k, In k ks -> 0 < sp_pdi k) -> exists b, 0 <= b /\ Csum (map (fun k => Cmult (sp_c k) (bracket q k)) ks) = RtoC b).
  { induction ks as [|k ks IH]; intros H W; cbn [map Csum fold_right]; [exists 0; split; [lra|reflexivity]|].
    pose proof (Forall_inv H) as [A B]. destruct (IH (Forall_inv_tail H)) as (b & Hb & E); [intros; apply W; now right|]. destruct (bracket_pos q k (W k (or_introl eq_refl)) B Hq) as (b' & Hb' & E').
    exists (sp_c k * b' + b). split; [assert (0 <= sp_c k * b') by (apply Rmult_le_pos; lra); lra|].
    unfold Csum in E. rewrite E, E', <- RtoC_mult, <- RtoC_plus. reflexivity. }
  induction l as [|k l IH]; intros H W (k0 & Hin & Hc); [destruct Hin|]. cbn [map Csum fold_right].
  pose proof (Forall_inv H) as [A B]. destruct (bracket_pos q k (W k (or_introl eq_refl)) B Hq) as (b' & Hb' & E').
  destruct Hin as [-> | Hin].
  - destruct (N l (Forall_inv_tail H)) as (b & Hb & E); [intros; apply W; now right|]. exists (sp_c k0 * b' + b).
    split; [assert (0 < sp_c k0 * b') by (now apply Rmult_lt_0_compat); lra|].
    unfold Csum in E. rewrite E, E', <- RtoC_mult, <- RtoC_plus. reflexivity.
  - destruct (IH (Forall_inv_tail H)) as (b & Hb & E); [intros; apply W; now right|exact (ex_intro _ k0 (conj Hin Hc))|]. exists (sp_c k * b' + b).
    split; [assert (0 <= sp_c k * b') by (apply Rmult_le_pos; lra); lra|].
    unfold Csum in E. rewrite E, E', <- RtoC_mult, <- RtoC_plus. reflexivity.
Qed.
Lemma I0_nz q phi l : q <> 0 -> 0 < phi -> (length l = 1 \/ length l = 2)%nat -> Forall good_sp l -> (forall k, In k l -> 0 < sp_pdi k) -> (exists k, In k l /\ 0 < sp_c k) ->
  I0 q phi l <> RtoC 0.
Proof.
  intros Hq Hp Hl Hg Hw Hc. rewrite I0_eq. destruct (brackets_pos q l Hq Hg Hw Hc) as (b & Hb & ->).
  pose proof (poly_rho_pos phi l Hp Hg Hl) as Hr. pose proof (s_neq q Hq) as Hs.
  assert (T : two_s q <> RtoC 0). { unfold two_s, Cdiv. apply Cmult_neq_0; [nz|]. intros E. apply Hs.
    assert (X : Cmult (0, q) (Cinv (0, q)) = RtoC 1) by (apply Cinv_r; exact Hs). rewrite E, Cmult_0_r in X. apply RtoC_inj in X. lra. }
  apply Cmult_neq_0; [|nz]. apply Cmult_neq_0; [|apply Cmult_neq_0; nz]. apply Cmult_neq_0; [|do 5 (apply Cmult_neq_0; [|exact T]); exact T].
  unfold Cdiv. rewrite <- RtoC_inv, <- RtoC_mult, <- RtoC_opp by lra. nz.
Qed.

(** * The dilute limit *)
Lemma rho_lin phi l : poly_rho phi l = phi * poly_rho 1 l.
Proof.
  destruct l as [|s0 [|s1 [|s2 l]]]; cbn [poly_rho]; try ring; unfold rho_of, Rdiv; try ring.
  destruct (Reqb (sp_c s0) 0); [ring|]. destruct (Reqb (sp_c s1) 0); ring.
Qed.
Lemma sigma0_dilute phi l : 0 < phi -> 0 < poly_rho 1 l -> poly_sigma0 phi (poly_rho phi l) = poly_sigma0 1 (poly_rho 1 l).
Proof.
  intros Hp Hr. rewrite rho_lin. unfold poly_sigma0. f_equal. pose proof PI_RGT_0. field. repeat split; lra.
Qed.
Section Dilute.
Variables (q : R) (l : list species).
Hypothesis (Hq : q <> 0) (Hl : (length l = 1 \/ length l = 2)%nat) (Hg : Forall good_sp l) (Hwd : forall k, In k l -> 0 < sp_pdi k) (Hc : exists k, In k l /\ 0 < sp_c k).
Lemma r1_pos : 0 < poly_rho 1 l.
Proof. apply poly_rho_pos; try assumption; lra. Qed.
Lemma O_inv_u : O (fun u => RtoC (/ u)) (-1).
Proof.
  exists 1, 1. split; [lra|]. split; [lra|]. intros u Hu. change (-1) with (- (1)). rewrite Cmod_R, Rpower_Ropp, Rpower_1 by lra.
  rewrite Rabs_pos_eq; [lra|]. left. apply Rinv_0_lt_compat. lra.
Qed.
Lemma al_inv_u : atleast (fun u => RtoC (/ u)) (-1).
Proof.
  exists 1, 1. split; [lra|]. split; [lra|]. intros u Hu. change (-1) with (- (1)). rewrite Cmod_R, Rpower_Ropp, Rpower_1 by lra.
  rewrite Rabs_pos_eq; [lra|]. left. apply Rinv_0_lt_compat. lra.
Qed.
Lemma O_rho : O (fun u => RtoC (poly_rho (/ u) l)) (-1).
Proof.
  replace (-1) with (-1 + 0) by lra.
  eapply O_ext; [|apply (O_mult _ (fun _ => RtoC (poly_rho 1 l)) _ _ O_inv_u); apply O_const].
  intros u _. cbv beta. rewrite (rho_lin (/ u)), RtoC_mult. reflexivity.
Qed.
Lemma al_rho : atleast (fun u => RtoC (poly_rho (/ u) l)) (-1).
Proof.
  pose proof r1_pos. replace (-1) with (-1 + 0) by lra.
  eapply atleast_ext; [|apply (atleast_mult _ (fun _ => RtoC (poly_rho 1 l)) _ _ al_inv_u); apply atleast_const; nz].
  intros u _. cbv beta. rewrite (rho_lin (/ u)), RtoC_mult. reflexivity.
Qed.
Lemma O_zeta : O (fun u => RtoC (poly_zeta2 (/ u) (poly_rho (/ u) l))) (-1).
Proof.
  pose proof r1_pos. replace (-1) with (-1 + 0) by lra.
  eapply O_ext; [|apply (O_mult _ (fun _ => RtoC (poly_sigma0 1 (poly_rho 1 l) ^ 2)) _ _ O_rho); apply O_const].
  intros u Hu. cbv beta. unfold poly_zeta2. rewrite (sigma0_dilute (/ u)), RtoC_mult; [reflexivity|apply Rinv_0_lt_compat; lra|assumption].
Qed.
Lemma al_Delta : atleast (fun u => RtoC (1 - / u)) 0.
Proof.
  eapply atleast_ext; [|apply (atleast_plus (fun _ => RtoC 1) (fun u => Copp (RtoC (/ u))) 0 (-1))].
  - intros u _. cbv beta. rewrite RtoC_minus. reflexivity.
  - lra.
  - apply atleast_const. nz.
  - apply O_opp, O_inv_u.
Qed.
Lemma sq_nz : ((0, q) : C) <> RtoC 0. Proof. now apply s_neq. Qed.
Ltac dil := pose proof O_rho; pose proof O_zeta; pose proof al_Delta; pose proof sq_nz; bigO.
Lemma dO_Ia1 : O (fun u => Ialpha1 q (/ u) l) (-1).
Proof.
  unfold Ialpha1. replace (-1) with (0 + -1) by lra. apply O_mult; [dil|]. apply O_sum. intros k Hk. dil.
Qed.
Lemma dO_Ia2 : O (fun u => Ialpha2 q (/ u) l) (-1).
Proof.
  unfold Ialpha2. replace (-1) with (0 + -1) by lra. apply O_mult; [dil|]. apply O_sum. intros k Hk. dil.
Qed.
Lemma dO_Iw1 : O (fun u => Iw1 q (/ u) l) (-2).
Proof. pose proof dO_Ia1. pose proof dO_Ia2. unfold Iw1. dil. Qed.
Lemma dO_Iw2 : O (fun u => Iw2 q (/ u) l) (-2).
Proof. pose proof dO_Ia1. pose proof dO_Ia2. unfold Iw2. dil. Qed.
Lemma dO_F11 : O (fun u => F11 q (/ u) l) (-1).
Proof. unfold F11. apply O_sum. intros k Hk. dil. Qed.
Lemma dO_F12 : O (fun u => F12 q (/ u) l) (-1).
Proof. unfold F12. apply O_sum. intros k Hk. pose proof (d_nz l Hg k Hk). dil. Qed.
Lemma dO_F21 : O (fun u => F21 q (/ u) l) (-1).
Proof. unfold F21. apply O_sum. intros k Hk. dil. Qed.
Lemma dO_F22 : O (fun u => F22 q (/ u) l) (-1).
Proof. unfold F22. apply O_sum. intros k Hk. dil. Qed.
Lemma d_det : atleast (fun u => FFdet q (/ u) l) 0.
Proof.
  pose proof dO_F11. pose proof dO_F12. pose proof dO_F21. pose proof dO_F22.
  eapply atleast_ext; [|apply (atleast_plus (fun _ => RtoC 1) (fun u => (- F11 q (/ u) l - F22 q (/ u) l + F11 q (/ u) l * F22 q (/ u) l - F12 q (/ u) l * F21 q (/ u) l)%C) 0 (-1))].
  - intros u _. cbv beta. unfold FFdet, FF11, FF12, FF21, FF22. ring.
  - lra.
  - apply atleast_const. nz.
  - bigO.
Qed.
Lemma d_I0 : atleast (fun u => I0 q (/ u) l) (-2).
Proof.
  pose proof r1_pos as Hr. pose proof al_rho. pose proof (I0_nz q 1 l Hq Rlt_0_1 Hl Hg Hwd Hc) as N.
  replace (-2) with (0 + -2) by lra.
  eapply atleast_ext; [|apply (atleast_mult (fun _ => I0 q 1 l) (fun u => Cmult (RtoC (/ u)) (RtoC (/ u))) 0 (-2))].
  - intros u _. cbv beta. rewrite !I0_eq. rewrite (rho_lin (/ u)), RtoC_mult. ring.
  - apply atleast_const. exact N.
  - replace (-2) with (-1 + -1) by lra. apply atleast_mult; apply al_inv_u.
Qed.
Lemma d_h2 : exists K Q, 0 <= K /\ 1 <= Q /\ forall u, Q < u -> FFdet q (/ u) l <> RtoC 0 /\ Rabs (poly_h2 q (/ u) l) <= K * / u.
Proof.
  pose proof dO_Iw1. pose proof dO_Iw2. pose proof dO_Ia1. pose proof dO_Ia2. pose proof dO_F11. pose proof dO_F12. pose proof dO_F21. pose proof dO_F22.
  pose proof d_I0. pose proof d_det as Hdet. destruct (atleast_nz _ _ Hdet) as (Q1 & HQ1 & N1).
  assert (Ot : O (fun u => (Iw1 q (/ u) l * G11 q (/ u) l * Ialpha1 q (/ u) l / I0 q (/ u) l + Iw1 q (/ u) l * G12 q (/ u) l * Ialpha2 q (/ u) l / I0 q (/ u) l
       + Iw2 q (/ u) l * G21 q (/ u) l * Ialpha1 q (/ u) l / I0 q (/ u) l + Iw2 q (/ u) l * G22 q (/ u) l * Ialpha2 q (/ u) l / I0 q (/ u) l)%C) (-1)).
  { unfold G11, G12, G21, G22, FF11, FF12, FF21, FF22. bigO. }
  destruct (O_real _ _ Ot Q1) as (K & Q & HK & HQ & HQ3 & B). exists K, Q. split; [exact HK|]. split; [exact HQ|].
  intros u Hu. split; [apply N1; lra|]. unfold poly_h2. eapply Rle_trans; [apply B; exact Hu|]. right.
  change (-1) with (- (1)). rewrite Rpower_Ropp, Rpower_1 by lra. reflexivity.
Qed.
End Dilute.

Lemma clamp_err h b : Rabs h <= b -> Rabs ((if Rltb (1 - 2 * h) 0 then 0 else 1 - 2 * h) - 1) <= 2 * b.
Proof.
  intros B. destruct (Rltb _ 0) eqn:E; [apply Rltb_true in E|]; unfold Rabs in *; repeat destruct Rcase_abs; lra.
Qed.
Theorem dilute q l : q <> 0 -> (length l = 1 \/ length l = 2)%nat -> Forall good_sp l -> (forall k, In k l -> 0 < sp_pdi k) -> (exists k, In k l /\ 0 < sp_c k) ->
  exists K P, 0 < P < 1 /\ forall phi, 0 < phi < P -> FFdet q phi l <> RtoC 0 /\ Rabs (factor_poly_w q phi l - 1) <= K * phi.
Proof.
  intros Hq Hl Hg Hw Hc. destruct (d_h2 q l Hq Hl Hg Hw Hc) as (K & Q & HK & HQ & B). exists (2 * K), (/ (Q + 1)).
  assert (I1 : 0 < / (Q + 1)) by (apply Rinv_0_lt_compat; lra).
  split; [split; [exact I1|]|].
  - rewrite <- Rinv_1. apply Rinv_lt_contravar; lra.
  - intros phi [H0 H1]. destruct (B (/ phi)) as [B1 B2].
    + apply Rlt_trans with (Q + 1); [lra|]. rewrite <- (Rinv_inv (Q + 1)). apply Rinv_lt_contravar; [apply Rmult_lt_0_compat; lra|exact H1].
    + rewrite !Rinv_inv in *. split; [exact B1|]. unfold factor_poly_w. cbv zeta. rewrite Rmult_assoc. now apply clamp_err.
Qed.
