(** Lemmas for C166. *)
From Coq Require Import Lra Lia Psatz Reals List FunctionalExtensionality.
From Verif Require Import Num Spec Spec_scat Spec_mean Spec_direct Spec_estimate Spec_diffuse Spec_later Spec_enough Spec_leave M_init M_montecarlo M_detector M_simulation M_scat
  L_num L_sampling L_montecarlo L_mean L_periodic L_local L_local2 L_outcomes L_meta L_meta3 L_meta4 L_pool L_simulation L_estimate L_single L_diffuse L_exits L_enough L_later.
From Coquelicot Require Import Coquelicot.
Import ListNotations.
Open Scope R_scope.

Lemma scatter1_unit k th ph : vx k ^ 2 + vy k ^ 2 + vz k ^ 2 = 1 ->
  vx (scatter1 k th ph) ^ 2 + vy (scatter1 k th ph) ^ 2 + vz (scatter1 k th ph) ^ 2 = 1.
Proof.
  intros <-. destruct k as [[x y] z]. unfold scatter1. cbn [vx vy vz fst snd].
  assert (A1 : cos th ^ 2 = 1 - sin th ^ 2) by (pose proof (sin2_cos2 th) as Q; unfold Rsqr in Q; lra).
  assert (A2 : cos ph ^ 2 = 1 - sin ph ^ 2) by (pose proof (sin2_cos2 ph) as Q; unfold Rsqr in Q; lra).
  transitivity ((x * cos th + z * sin th) ^ 2 * (cos ph ^ 2 + sin ph ^ 2) + y ^ 2 * (cos ph ^ 2 + sin ph ^ 2) + (- x * sin th + z * cos th) ^ 2); [ring|].
  rewrite A2. transitivity (x ^ 2 * (cos th ^ 2 + sin th ^ 2) + z ^ 2 * (cos th ^ 2 + sin th ^ 2) + y ^ 2); [ring|]. rewrite A1. ring.
Qed.

(** ** A walk that stays *)
Section Stay.
Variables (pick : R -> R) (avg : (R -> R) -> R).
Hypothesis Havg : forall f : R -> R, is_RInt (fun u => f (pick u)) 0 1 (avg f).
Variables (k0 : vec) (mu d c beta : R) (h V w : R -> R) (cw : R).
Hypothesis (Hk0 : vx k0 ^ 2 + vy k0 ^ 2 + vz k0 ^ 2 = 1) (Hmu : 0 < mu) (Hd : 0 <= d) (Hcw : 0 < cw) (Hw : forall z, c < Rabs z -> cw <= w z).
Hypothesis (Hh : forall z, -1 <= z <= 1 -> h z <= 1) (Hh0 : forall z, Rabs z <= c -> h z <= 0) (Hb : beta <= 1).
Hypothesis (HV : forall k th, vx k ^ 2 + vy k ^ 2 + vz k ^ 2 = 1 ->
  is_RInt (fun x => avg (fun th' => h (- vx (scatter1 k th (2 * PI * x)) * sin th' + vz (scatter1 k th (2 * PI * x)) * cos th'))) 0 1
    (V (- vx k * sin th + vz k * cos th))).
Hypothesis (HVb : forall z, -1 <= z <= 1 -> beta <= V z).
Definition sang (t : nat -> R) (k : nat) : R * R := (pick (t (3 * k)%nat), 2 * PI * t (3 * k + 2)%nat).
Definition W (t : nat -> R) (k : nat) : vec := scat_dir k0 (sang t) k.
Definition Z (t : nat -> R) (k : nat) : R := vz (W t k).
(** 1 if the light stays at event k+1: its direction is beyond c and its step,
    times w, longer than d. *)
Definition stays_if (z s : R) : R := if (Rltb c (Rabs z) && Rltb d (s * w z))%bool then 0 else 1.
Definition stays (t : nat -> R) (k : nat) : R := stays_if (Z t (S k)) (step_of mu (frac_part (t (3 * k + 1)%nat))).
Fixpoint Pr (t : nat -> R) (j : nat) : R := match j with O => 1 | S j => Pr t j * stays t (S j) end.
Definition q (z : R) : R := if Rltb c (Rabs z) then 1 - exp (- (mu * (d / w z))) else 1.
Definition kap : R := exp (- (mu * d / cw)).
Definition rho : R := 1 - kap * beta.
Fixpoint G (t : nat -> R) (j : nat) : R :=
  match j with
  | O => 1
  | S j => Pr t j * (stays t (S j) + (1 - kap * h (Z t (S (S j)))) - q (Z t (S (S j))))
           + Pr t j * (rho - 1 + kap * V (Z t (S j))) + rho * (G t j - Pr t j)
  end.

Lemma W_unit t k : vx (W t k) ^ 2 + vy (W t k) ^ 2 + vz (W t k) ^ 2 = 1.
Proof. induction k as [|k IH]; [exact Hk0|]. apply scatter1_unit, IH. Qed.
Lemma Z_range t k : -1 <= Z t k <= 1.
Proof. pose proof (W_unit t k) as U. unfold Z. pose proof (pow2_ge_0 (vx (W t k))). pose proof (pow2_ge_0 (vy (W t k))). nra. Qed.
Lemma kap_range : 0 < kap <= 1.
Proof.
  unfold kap. split; [apply exp_pos|]. rewrite <- exp_0 at 1. assert (0 <= mu * d / cw) by (apply Rmult_le_pos; [apply Rmult_le_pos; lra|left; now apply Rinv_0_lt_compat]).
  destruct (Req_dec (mu * d / cw) 0) as [->|N]; [rewrite Ropp_0; lra|]. left. apply exp_increasing. lra.
Qed.
Lemma q_bound z : -1 <= z <= 1 -> q z <= 1 - kap * h z.
Proof.
  intros Hz. pose proof kap_range as Kr. unfold q.
  destruct (Rltb c (Rabs z)) eqn:E1.
  - apply Rltb_true in E1. pose proof (Hw z E1) as Wz. assert (kap <= exp (- (mu * (d / w z)))).
    { unfold kap. assert (mu * (d / w z) <= mu * d / cw).
      { unfold Rdiv. rewrite Rmult_assoc. apply Rmult_le_compat_l; [lra|]. apply Rmult_le_compat_l; [lra|]. apply Rinv_le_contravar; lra. }
      destruct (Req_dec (mu * (d / w z)) (mu * d / cw)) as [->|N]; [lra|]. left. apply exp_increasing. lra. }
    pose proof (Hh z Hz). nra.
  - apply Rltb_false in E1. pose proof (Hh0 z E1). nra.
Qed.
Lemma rho_pos : 0 <= rho.
Proof. pose proof kap_range as Kr. unfold rho. destruct (Rle_dec beta 0); nra. Qed.
Lemma stays_01 t k : 0 <= stays t k <= 1.
Proof. unfold stays, stays_if. destruct (_ && _)%bool; lra. Qed.
Lemma Pr_01 t j : 0 <= Pr t j <= 1.
Proof. induction j as [|j IH]; cbn [Pr]; [lra|]. pose proof (stays_01 t (S j)). nra. Qed.
Lemma Pr_le t j : Pr t j <= G t j.
Proof.
  induction j as [|j IH]; cbn [Pr G]; [lra|]. pose proof (Pr_01 t j) as P0. pose proof (q_bound (Z t (S (S j))) (Z_range t _)) as Q.
  pose proof (HVb (Z t (S j)) (Z_range t _)) as ML. pose proof rho_pos as R0. pose proof kap_range as Kr.
  assert (B : 0 <= rho - 1 + kap * V (Z t (S j))) by (unfold rho; nra).
  set (x := rho - 1 + kap * V (Z t (S j))) in *. clearbody x.
  assert (0 <= Pr t j * x) by (apply Rmult_le_pos; lra). assert (0 <= rho * (G t j - Pr t j)) by (apply Rmult_le_pos; lra).
  assert (Pr t j * stays t (S j) <= Pr t j * (stays t (S j) + (1 - kap * h (Z t (S (S j)))) - q (Z t (S (S j))))); [|lra].
  apply Rmult_le_compat_l; lra.
Qed.

(** Which numbers matter. *)
Lemma W_dep k : forall t t', (forall i, (i < 3 * k)%nat -> t i = t' i) -> W t k = W t' k.
Proof.
  induction k as [|k IH]; intros t t' H; [reflexivity|]. unfold W in *. cbn [scat_dir]. rewrite (IH t t') by (intros; apply H; lia).
  unfold sang. cbn [fst snd]. rewrite (H (3 * k)%nat), (H (3 * k + 2)%nat) by lia. reflexivity.
Qed.
Lemma Z_S t k : Z t (S k) = - vx (W t k) * sin (pick (t (3 * k)%nat)) + vz (W t k) * cos (pick (t (3 * k)%nat)).
Proof. reflexivity. Qed.
Lemma Z_dep k t t' : (forall i, (i < 3 * k + 1)%nat -> t i = t' i) -> Z t (S k) = Z t' (S k).
Proof. intros H. rewrite !Z_S, (W_dep k t t') by (intros; apply H; lia). now rewrite (H (3 * k)%nat) by lia. Qed.
Lemma stays_dep k t t' : (forall i, (i < 3 * k + 2)%nat -> t i = t' i) -> stays t k = stays t' k.
Proof. intros H. unfold stays. rewrite (Z_dep k t t') by (intros; apply H; lia). now rewrite (H (3 * k + 1)%nat) by lia. Qed.
Lemma Pr_dep j : dep (3 * j + 2) (fun t => Pr t j).
Proof.
  induction j as [|j IH]; intros t t' H; cbn [Pr]; [reflexivity|]. rewrite (IH t t') by (intros; apply H; lia).
  rewrite (stays_dep (S j) t t') by (intros; apply H; lia). reflexivity.
Qed.
Lemma G_dep j : dep (3 * j + 2) (fun t => G t j).
Proof.
  induction j as [|j IH]; intros t t' H; cbn [G]; [reflexivity|]. rewrite (IH t t') by (intros; apply H; lia).
  rewrite (Pr_dep j t t') by (intros; apply H; lia). rewrite (stays_dep (S j) t t') by (intros; apply H; lia).
  rewrite (Z_dep (S j) t t') by (intros; apply H; lia). rewrite (Z_dep j t t') by (intros; apply H; lia). reflexivity.
Qed.

(** The mean over the step. *)
Lemma step_mean z a b : is_RInt (fun x => a * stays_if z (step_of mu (frac_part x)) + b) 0 1 (a * q z + b).
Proof.
  unfold stays_if, q. destruct (Rltb c (Rabs z)) eqn:E1; cbn [andb].
  - apply Rltb_true in E1. pose proof (Hw z E1) as Wz. assert (Hz : 0 < w z) by lra.
    assert (Hdz : 0 <= d / w z) by (apply Rmult_le_pos; [exact Hd|left; now apply Rinv_0_lt_compat]).
    pose proof (u0_range mu (d / w z) Hmu Hdz) as U. set (u0 := 1 - exp (- (mu * (d / w z)))) in *.
    assert (Ed : d = d / w z * w z) by (field; lra).
    assert (Q1 : is_RInt (fun x => a * (if Rltb d (step_of mu (frac_part x) * w z) then 0 else 1) + b) 0 u0 (scal (u0 - 0) (a + b))).
    { apply (is_RInt_ext (fun _ => a + b)); [|apply (is_RInt_const (V := R_NormedModule) 0 u0 (a + b))]. rewrite Rmin_left, Rmax_right by lra. intros x Hx.
      rewrite (frac_id x) by lra. pose proof (step_lt mu (d / w z) Hmu Hdz x ltac:(fold u0; lra)) as S1.
      rewrite (proj2 (Rltb_false _ _)); [rring|]. rewrite Ed at 1. apply Rmult_le_compat_r; lra. }
    assert (Q2 : is_RInt (fun x => a * (if Rltb d (step_of mu (frac_part x) * w z) then 0 else 1) + b) u0 1 (scal (1 - u0) b)).
    { apply (is_RInt_ext (fun _ => b)); [|apply (is_RInt_const (V := R_NormedModule) u0 1 b)]. rewrite Rmin_left, Rmax_right by lra. intros x Hx.
      rewrite (frac_id x) by lra. pose proof (step_gt mu (d / w z) Hmu Hdz x ltac:(fold u0; lra)) as S1.
      rewrite (proj2 (Rltb_true _ _)); [rring|]. rewrite Ed at 1. apply Rmult_lt_compat_r; lra. }
    refine (eq_ind _ (fun v => is_RInt _ 0 1 v) (is_RInt_Chasles _ _ _ _ _ _ Q1 Q2) _ _).
    match goal with |- plus (scal ?u ?v) (scal ?x ?y) = _ => change (plus (scal u v) (scal x y)) with (u * v + x * y) end. unfold u0. rring.
  - refine (eq_ind _ (fun v => is_RInt _ 0 1 v) (const_int (a * 1 + b)) _ _). reflexivity.
Qed.
(** The mean over the polar angle. *)
Lemma polar_mean x z a b : is_RInt (fun u => b - a * h (- x * sin (pick u) + z * cos (pick u))) 0 1
  (b - a * avg (fun th => h (- x * sin th + z * cos th))).
Proof.
  pose proof (is_RInt_plus _ _ 0 1 _ _ (const_int b) (is_RInt_scal _ _ _ (- a) _ (Havg (fun th => h (- x * sin th + z * cos th))))) as Q.
  refine (eq_ind _ (fun v => is_RInt _ 0 1 v) (is_RInt_ext _ _ 0 1 _ _ Q) _ _).
  - intros u _. match goal with |- plus ?u (scal ?v ?w) = _ => change (plus u (scal v w)) with (u + v * w) end. rring.
  - match goal with |- plus ?u (scal ?v ?w) = _ => change (plus u (scal v w)) with (u + v * w) end. rring.
Qed.
Lemma azimuth_mean k th a b : vx k ^ 2 + vy k ^ 2 + vz k ^ 2 = 1 ->
  is_RInt (fun x => b - a * avg (fun th' => h (- vx (scatter1 k th (2 * PI * x)) * sin th' + vz (scatter1 k th (2 * PI * x)) * cos th'))) 0 1
    (b - a * V (- vx k * sin th + vz k * cos th)).
Proof.
  intros Hk. pose proof (is_RInt_plus _ _ 0 1 _ _ (const_int b) (is_RInt_scal _ _ _ (- a) _ (HV k th Hk))) as Q.
  refine (eq_ind _ (fun v => is_RInt _ 0 1 v) (is_RInt_ext _ _ 0 1 _ _ Q) _ _).
  - intros u _. match goal with |- plus ?u (scal ?v ?w) = _ => change (plus u (scal v w)) with (u + v * w) end. rring.
  - match goal with |- plus ?u (scal ?v ?w) = _ => change (plus u (scal v w)) with (u + v * w) end. rring.
Qed.

Lemma G_mean j : is_mean (3 * j + 2) (fun t => G t j) (rho ^ j).
Proof.
  induction j as [|j IH].
  - cbn [G pow]. apply is_mean_const.
  - replace (3 * S j + 2)%nat with (S (S (S (3 * j + 2)))) by lia. cbn [is_mean].
    (* the step *)
    exists (fun t => Pr t j * (1 - kap * h (Z t (S (S j)))) + (Pr t j * (rho - 1 + kap * V (Z t (S j))) + rho * (G t j - Pr t j))). split.
    { intros t. set (i := S (S (3 * j + 2))). assert (Ei : i = (3 * S j + 1)%nat) by (unfold i; lia).
      pose proof (step_mean (Z t (S (S j))) (Pr t j)
        (Pr t j * ((1 - kap * h (Z t (S (S j)))) - q (Z t (S (S j)))) + Pr t j * (rho - 1 + kap * V (Z t (S j))) + rho * (G t j - Pr t j))) as Q.
      refine (eq_ind _ (fun v => is_RInt _ 0 1 v) (is_RInt_ext _ _ 0 1 _ _ Q) _ _); [|rring]. intros x _. cbn [G].
      assert (U : forall n, (n < i)%nat -> upd t i x n = t n) by (intros n Hn; apply upd_other; lia).
      rewrite (Pr_dep j (upd t i x) t) by (intros; apply U; lia). rewrite (G_dep j (upd t i x) t) by (intros; apply U; lia).
      rewrite (Z_dep (S j) (upd t i x) t) by (intros; apply U; lia). rewrite (Z_dep j (upd t i x) t) by (intros; apply U; lia).
      unfold stays. rewrite (Z_dep (S j) (upd t i x) t) by (intros; apply U; lia). rewrite <- Ei, upd_same. rring. }
    (* the polar angle *)
    exists (fun t => Pr t j + (Pr t j * (rho - 1 + kap * V (Z t (S j))) + rho * (G t j - Pr t j))
       - Pr t j * kap * avg (fun th => h (- vx (W t (S j)) * sin th + vz (W t (S j)) * cos th))). split.
    { intros t. set (i := S (3 * j + 2)). assert (Ei : i = (3 * S j)%nat) by (unfold i; lia).
      refine (is_RInt_ext _ _ 0 1 _ _ (polar_mean (vx (W t (S j))) (vz (W t (S j))) (Pr t j * kap) _)). intros x _.
      assert (U : forall n, (n < i)%nat -> upd t i x n = t n) by (intros n Hn; apply upd_other; lia).
      rewrite (Pr_dep j (upd t i x) t) by (intros; apply U; lia). rewrite (G_dep j (upd t i x) t) by (intros; apply U; lia).
      rewrite (Z_dep j (upd t i x) t) by (intros; apply U; lia). rewrite (Z_S (upd t i x) (S j)). rewrite (W_dep (S j) (upd t i x) t) by (intros; apply U; lia).
      rewrite <- Ei, upd_same. rring. }
    (* the azimuth *)
    exists (fun t => rho * G t j). split.
    { intros t. set (i := (3 * j + 2)%nat).
      pose proof (azimuth_mean (W t j) (pick (t (3 * j)%nat)) (Pr t j * kap) (Pr t j + (Pr t j * (rho - 1 + kap * V (Z t (S j))) + rho * (G t j - Pr t j))) (W_unit t j)) as Q.
      refine (eq_ind _ (fun v => is_RInt _ 0 1 v) (is_RInt_ext _ _ 0 1 _ _ Q) _ _).
      - intros x _. assert (U : forall n, (n < i)%nat -> upd t i x n = t n) by (intros n Hn; apply upd_other; lia).
        rewrite (Pr_dep j (upd t i x) t) by (intros; apply U; unfold i; lia). rewrite (G_dep j (upd t i x) t) by (intros; apply U; unfold i; lia).
        rewrite (Z_dep j (upd t i x) t) by (intros; apply U; unfold i; lia).
        assert (EW : W (upd t i x) (S j) = scatter1 (W t j) (pick (t (3 * j)%nat)) (2 * PI * x)).
        { change (W (upd t i x) (S j)) with (scatter1 (W (upd t i x) j) (pick (upd t i x (3 * j)%nat)) (2 * PI * upd t i x (3 * j + 2)%nat)).
          rewrite (W_dep j (upd t i x) t) by (intros; apply U; unfold i; lia). rewrite U by (unfold i; lia). unfold i. now rewrite upd_same. }
        rewrite EW. reflexivity.
      - rewrite <- Z_S. rring. }
    cbn [pow]. apply is_mean_scal. exact IH.
Qed.
Lemma G_mean3 j : is_mean (3 * S j) (fun t => G t j) (rho ^ j).
Proof.
  replace (3 * S j)%nat with (S (3 * j + 2)) by lia. cbn [is_mean]. exists (fun t => G t j). split; [|apply G_mean].
  intros t. refine (is_RInt_ext _ _ 0 1 _ _ (const_int (G t j))). intros x _. symmetry. apply (G_dep j). intros i Hi. apply upd_other. lia.
Qed.
End Stay.

(** ** The scattering: the mean over the azimuth *)
Lemma on_circle u v r : 0 <= r -> u ^ 2 + v ^ 2 = r ^ 2 -> exists a, u = r * cos a /\ v = r * sin a.
Proof.
  intros Hr E. destruct (Req_dec r 0) as [->|N].
  - exists 0. assert (u = 0) by nra. assert (v = 0) by nra. subst. split; ring.
  - assert (Hr' : 0 < r) by lra. assert (B : -1 <= u / r <= 1).
    { split; [apply Rcomplements.Rle_div_r; [lra|nra]|apply Rcomplements.Rle_div_l; [lra|nra]]. }
    assert (S2 : sqrt (1 - (u / r) ^ 2) = Rabs v / r).
    { replace (1 - (u / r) ^ 2) with ((Rabs v / r) ^ 2).
      - rewrite <- Rsqr_pow2. apply sqrt_Rsqr. apply Rmult_le_pos; [apply Rabs_pos|left; now apply Rinv_0_lt_compat].
      - unfold Rdiv. rewrite !Rpow_mult_distr, pow2_abs. replace (v ^ 2) with (r ^ 2 - u ^ 2) by lra. field. lra. }
    destruct (Rle_dec 0 v) as [L|L].
    + exists (acos (u / r)). rewrite cos_acos by exact B. rewrite sin_acos by exact B. rewrite <- Rsqr_pow2 in S2. rewrite S2, Rabs_pos_eq by exact L. split; field; lra.
    + exists (- acos (u / r)). rewrite cos_neg, sin_neg, cos_acos by exact B. rewrite sin_acos by exact B. rewrite <- Rsqr_pow2 in S2. rewrite S2, Rabs_left by lra. split; field; lra.
Qed.
Lemma total_continuous (f : nat -> R -> R) l x : (forall i, continuous (f i) x) -> continuous (fun y => total (map (fun i => f i y) l)) x.
Proof.
  intros H. induction l as [|i l IH]; cbn [map total]; [apply continuous_const|]. apply (continuous_plus (f i)); [apply H|exact IH].
Qed.
Lemma after_continuous p lo h z x : (forall y, continuous h y) -> continuous (after_scattering p lo h z) x.
Proof.
  intros Hh. unfold after_scattering, average. apply total_continuous. intros i. set (th := grid lo PI (length p) i). set (s := share _ _ _). set (r := sqrt _).
  apply (continuous_mult (fun _ => s) (fun y => h (z * cos th + r * sin th * cos (2 * PI * y)))); [apply continuous_const|].
  apply (continuous_comp (fun y => z * cos th + r * sin th * cos (2 * PI * y)) h); [|apply Hh].
  apply (ex_derive_continuous (fun y => z * cos th + r * sin th * cos (2 * PI * y))). auto_derive. exact Logic.I.
Qed.
Lemma after_integral p lo h z : (forall y, continuous h y) -> is_RInt (after_scattering p lo h z) 0 1 (RInt (after_scattering p lo h z) 0 1).
Proof. intros Hh. apply (RInt_correct (V := R_CompleteNormedModule)), ex_RInt_continuous. intros x _. now apply after_continuous. Qed.
Lemma after_scatter_gen p lo h k th W : vx k ^ 2 + vy k ^ 2 + vz k ^ 2 = 1 ->
  is_RInt (after_scattering p lo h (- vx k * sin th + vz k * cos th)) 0 1 W ->
  is_RInt (fun x => average p lo (fun th' => h (- vx (scatter1 k th (2 * PI * x)) * sin th' + vz (scatter1 k th (2 * PI * x)) * cos th'))) 0 1
    W.
Proof.
  intros Hk HW. set (z := - vx k * sin th + vz k * cos th). set (u := vx k * cos th + vz k * sin th). set (v := vy k).
  assert (N : u ^ 2 + v ^ 2 = 1 - z ^ 2).
  { pose proof (sin2_cos2 th) as S2. unfold Rsqr in S2. assert (E : sin th ^ 2 = 1 - cos th ^ 2) by (cbn [pow]; lra).
    rewrite <- Hk. change (vy k) with v. apply (Rplus_eq_reg_r (z ^ 2)). unfold u, z.
    transitivity (vx k ^ 2 * (sin th ^ 2 + cos th ^ 2) + vz k ^ 2 * (sin th ^ 2 + cos th ^ 2) + v ^ 2); [ring|rewrite E; ring]. }
  assert (Hr : 0 <= 1 - z ^ 2) by (rewrite <- N; pose proof (pow2_ge_0 u); pose proof (pow2_ge_0 v); lra).
  destruct (on_circle u v (sqrt (1 - z ^ 2)) (sqrt_pos _)) as (a & Eu & Ev).
  { rewrite N. symmetry. rewrite <- Rsqr_pow2. now apply Rsqr_sqrt. }
  assert (Pe : forall x, after_scattering p lo h z (x + 1) = after_scattering p lo h z x).
  { intros x. unfold after_scattering. f_equal. apply functional_extensionality. intros th'. do 3 f_equal. replace (2 * PI * (x + 1)) with (2 * PI * x + 2 * PI) by ring. apply cos_2PI_eq || (rewrite cos_plus, cos_2PI, sin_2PI; ring). }
  pose proof (shift_periodic _ ((a + PI) / (2 * PI)) _ Pe HW) as Q.
  refine (is_RInt_ext _ _ 0 1 _ _ Q). intros x _. unfold after_scattering. f_equal. apply functional_extensionality. intros th'. f_equal.
  unfold scatter1. cbn [vx vz fst snd]. fold u v z. change (vy k) with v. rewrite Eu, Ev at 1.
  replace (2 * PI * (x + (a + PI) / (2 * PI))) with (2 * PI * x + a + PI) by (field; apply Rgt_not_eq, PI_RGT_0).
  rewrite neg_cos, cos_plus. ring.
Qed.

Lemma after_scatter p lo h k th : (forall y, continuous h y) -> vx k ^ 2 + vy k ^ 2 + vz k ^ 2 = 1 ->
  is_RInt (fun x => average p lo (fun th' => h (- vx (scatter1 k th (2 * PI * x)) * sin th' + vz (scatter1 k th (2 * PI * x)) * cos th'))) 0 1
    (RInt (after_scattering p lo h (- vx k * sin th + vz k * cos th)) 0 1).
Proof. intros Hh Hk. apply after_scatter_gen; [exact Hk|now apply after_integral]. Qed.

(** ** Trajectories of a film *)
Section Film.
Variables (nev : nat) (spot tmin tmax pmin pmax mu : R) (P : params) (D : draws).
Hypothesis (Hn : (0 < nev)%nat) (Hmu : 0 < mu) (HP : plain_film P) (Hu : forall n i, 0 <= d_u D n i < 1).
Local Notation T i := (fl_traj nev spot tmin tmax pmin pmax mu P D i).
Lemma no_leave i k : still (film_view P (T i)) <> 0 -> (k < nev)%nat ->
  let z := vz (scat_dir (fl_dir tmin tmax pmin pmax P D i) (d_ang D i) k) in
  steep (p_nsample P) (p_nmedium P) z -> step_of mu (d_u D k i) * Rabs z < p_thickness P.
Proof.
  intros Hs Hk z Hst. pose proof (fl_nt P HP) as Ent.
  assert (R0 : (v_r (film_view P (T i)) = 0 /\ v_t (film_view P (T i)) = 0)%nat).
  { unfold still in Hs. destruct (Nat.eqb_spec (v_r (film_view P (T i)) + v_t (film_view P (T i))) 0) as [E|E]; [lia|exfalso; apply Hs; reflexivity]. }
  pose proof HP as (Hb & Hr & Hg & Hk1 & Hk2 & Hp & Hz & Hth & Ha' & Hm & Hf & Hbk).
  destruct (made_ok nev (S i) mu (p_muabs P) D (fl_pos spot D) (fl_dir tmin tmax pmin pmax P D) i) as [B1 B2]; try assumption; [lia|].
  assert (Dk : dirs_ok (T i)) by (apply B2; destruct (fl_entry_some tmin tmax pmin pmax P HP D i) as (th & _ & U & _); exact U).
  assert (Wf : wf_len (T i)) by apply B1.
  assert (Ld : length (t_dir (T i)) = nev) by (unfold fl_traj, made; cbn [t_dir]; now rewrite map_length, seq_length).
  assert (EK : vz (nth k (t_dir (T i)) vzero) = z).
  { unfold fl_traj, made. cbn [t_dir]. rewrite (nth_indep _ _ (scat_dir (fl_dir tmin tmax pmin pmax P D i) (d_ang D i) 0)) by (rewrite map_length, seq_length; exact Hk).
    rewrite map_nth, seq_nth by exact Hk. reflexivity. }
  assert (ES : vz (nth (S k) (t_pos (T i)) vzero) = vz (nth k (t_pos (T i)) vzero) + step_of mu (d_u D k i) * z).
  { rewrite <- EK. unfold fl_traj, made. cbn [t_pos t_dir].
    match goal with |- context [move (?p :: ?rest) ?dirs ?step] => pose proof (move_step p rest dirs step k) as MS end.
    apply (f_equal vz) in MS; [|unfold steps_of; rewrite !map_length, !seq_length; lia..]. unfold vsub, vscale in MS. cbn [vz snd] in MS.
    match type of MS with ?u - ?v = ?w => apply (Rplus_eq_reg_r (- v)); transitivity w; [rewrite <- MS; ring|] end.
    match goal with |- _ = ?v + ?w + - ?v => transitivity w; [|ring] end.
    unfold steps_of. replace (nth k (map (fun n => step_of mu (d_u D n i)) (seq 0 nev)) 0) with (step_of mu (d_u D k i)); [reflexivity|].
    rewrite (nth_indep _ 0 (step_of mu (d_u D 0 i))) by (rewrite map_length, seq_length; exact Hk). rewrite (map_nth (fun n => step_of mu (d_u D n i))), seq_nth by exact Hk. reflexivity. }
  unfold film_view in R0. cbn [v_r v_t] in R0. rewrite Hb, Hz in R0.
  destruct (find_valid_exits (choose_n_tir P) (p_nmedium P) (p_thickness P) 0 film (T i)) as [[ps ng] ti] eqn:He.
  destruct (trajectory_outcome _ _ _ _ _ _ _ _ _ Wf He) as (r & tt & st & Hev & Ho). rewrite Hev in R0. cbn [i_refl i_trans] in R0. destruct R0 as [-> ->].
  destruct Ho as [(N1 & N2 & _)|[(j & _ & _ & _ & E & _)|(j & _ & _ & _ & _ & E & _)]]; try discriminate.
  destruct (in_slab_exists 0 (p_thickness P) (vz (nth k (t_pos (T i)) vzero)) Hth) as [m Hin].
  rewrite Ent in He.
  pose proof (film_exit_characterised (p_nsample P) (p_nmedium P) (p_thickness P) 0 (T i) ps ng ti k m Wf Dk Hth ltac:(lra) He ltac:(lia)) as F. cbv zeta in F.
  rewrite EK, ES, Rminus_0_r in F. specialize (F Hin). destruct F as (F1 & F2 & _). rewrite N1 in F2. rewrite N2 in F1. rewrite !Rplus_0_l in F1, F2.
  set (z0 := vz (nth k (t_pos (T i)) vzero)) in *. clearbody z0.
  assert (S0 : 0 <= step_of mu (d_u D k i)) by (apply L_montecarlo.step_nonneg; [exact Hmu|apply Hu]).
  set (s := step_of mu (d_u D k i)) in *. clearbody s. destruct Hin as [I1 I2]. rewrite !Rplus_0_l in I1, I2.
  assert (NU : ~ (IZR m + 1) * p_thickness P <= z0 + s * z).
  { intros H. destruct (Z.even m) eqn:Em; [|assert (Om : Z.odd m = true) by (rewrite <- Z.negb_even, Em; reflexivity)].
    - assert (false = true) by (apply F1; tauto). discriminate.
    - assert (false = true) by (apply F2; tauto). discriminate. }
  assert (ND : ~ z0 + s * z < IZR m * p_thickness P).
  { intros H. destruct (Z.even m) eqn:Em; [|assert (Om : Z.odd m = true) by (rewrite <- Z.negb_even, Em; reflexivity)].
    - assert (false = true) by (apply F2; tauto). discriminate.
    - assert (false = true) by (apply F1; tauto). discriminate. }
  rewrite <- (Rabs_pos_eq s S0), <- Rabs_mult. apply Rabs_def1; lra.
Qed.
End Film.

(** ** Runs *)
Section Table.
Variables (p : list R) (lo : R).
Hypothesis (Hlo : 0 <= lo <= PI) (Hp : List.Forall (fun x => 0 <= x) p) (Ht : 0 < total (map (angle_weight p lo) (seq 0 (length p)))).
Lemma angle_split a b : match sample_angle_1d p lo a b with Ok x => x | Err _ => (0, 0) end = (polar p lo b, 2 * PI * a).
Proof. exact (drawn_ok p lo Hlo Hp Ht (fun i => match i with O => b | _ => a end) 0). Qed.
Lemma shares_total : total (map (share (angle_weight p lo) (length p)) (seq 0 (length p))) = 1.
Proof. unfold share. set (s := total (map (angle_weight p lo) (seq 0 (length p)))) in *.
  transitivity (s * / s); [|field; lra]. unfold s at 2. unfold Rdiv.
  assert (E : forall (f : nat -> R) k l, total (map (fun i => f i * k) l) = total (map f l) * k) by (intros f k l; induction l as [|i l IH]; cbn [map total]; [ring|rewrite IH; ring]).
  apply E. Qed.
Lemma share_nonneg i : (i < length p)%nat -> 0 <= share (angle_weight p lo) (length p) i.
Proof. intros Hi. unfold share. apply Rmult_le_pos; [now apply (w_pos p lo Hlo Hp)|left; now apply Rinv_0_lt_compat]. Qed.
Lemma average_mono f g : (forall th, f th <= g th) -> average p lo f <= average p lo g.
Proof.
  intros H. unfold average. assert (Q : forall l, (forall i, In i l -> (i < length p)%nat) ->
    total (map (fun i => share (angle_weight p lo) (length p) i * f (grid lo PI (length p) i)) l) <= total (map (fun i => share (angle_weight p lo) (length p) i * g (grid lo PI (length p) i)) l)).
  { induction l as [|i l IH]; intros Hl; cbn [map total]; [lra|]. pose proof (share_nonneg i (Hl i (or_introl eq_refl))) as S0.
    pose proof (IH (fun j Hj => Hl j (or_intror Hj))). pose proof (Rmult_le_compat_l _ _ _ S0 (H (grid lo PI (length p) i))). lra. }
  apply Q. intros i Hi. apply in_seq in Hi. lia.
Qed.
Lemma average_const k : average p lo (fun _ => k) = k.
Proof.
  unfold average. transitivity (total (map (share (angle_weight p lo) (length p)) (seq 0 (length p))) * k); [|rewrite shares_total; ring].
  generalize (seq 0 (length p)). intros l; induction l as [|i l IH]; cbn [map total]; [ring|rewrite IH; ring].
Qed.
Lemma new_range z th x : -1 <= z <= 1 -> -1 <= z * cos th + sqrt (1 - z ^ 2) * sin th * cos (2 * PI * x) <= 1.
Proof.
  intros Hz. assert (Hr : 0 <= 1 - z ^ 2) by nra. pose proof (sqrt_pos (1 - z ^ 2)) as R0. pose proof (sqrt_sqrt _ Hr) as R1. set (r := sqrt (1 - z ^ 2)) in *. clearbody r.
  pose proof (sin2_cos2 th) as S2. unfold Rsqr in S2. pose proof (COS_bound (2 * PI * x)) as Cb. set (y := cos (2 * PI * x)) in *. clearbody y.
  set (a := sin th) in *. set (b := cos th) in *. clearbody a b.
  assert (Q : (z * b + r * a * y) ^ 2 <= 1).
  { assert (E : (z * b + r * (a * y)) ^ 2 + (z * (a * y) - r * b) ^ 2 = (z ^ 2 + r * r) * (b * b + a * a * (y * y))) by ring.
    assert (y * y <= 1) by nra. assert (b * b + a * a * (y * y) <= 1) by nra. rewrite R1 in E.
    replace (r * a * y) with (r * (a * y)) by ring. pose proof (pow2_ge_0 (z * (a * y) - r * b)). nra. }
  split; nra.
Qed.
Lemma reaches_le_1 c beta : reaches p lo c beta -> beta <= 1.
Proof.
  intros (h & Hc & H1 & H0 & Hb). apply Rle_trans with (1 := Hb 0 _ ltac:(lra) (after_integral p lo h 0 Hc)).
  refine (is_RInt_le (after_scattering p lo h 0) (fun _ => 1) 0 1 _ _ ltac:(lra) (after_integral p lo h 0 Hc) (const_int 1) _).
  intros x _. unfold after_scattering. apply Rle_trans with (average p lo (fun _ => 1)); [|right; apply average_const].
  apply average_mono. intros th. apply H1. apply (new_range 0 th x). lra.
Qed.

Section Runs.
Variables (n j : nat) (spot tmin tmax pmin pmax mu c beta : R) (P : params) (D : draws).
Hypothesis (Hn : (0 < n)%nat) (Hmu : 0 < mu) (HP : plain_film P) (Hu : forall n i, 0 <= d_u D n i < 1)
  (Hc : 0 < c) (Hcc : 1 - (p_nmedium P / p_nsample P) ^ 2 <= c ^ 2).
Local Notation E t := (with_scatterings p lo (S j) t D).
Local Notation k0 i := (fl_dir tmin tmax pmin pmax P D i).
Lemma E_ok t : forall n i, 0 <= d_u (E t) n i < 1.
Proof.
  intros [|k] i; cbn [with_scatterings d_u]; [apply Hu|]. destruct (Nat.ltb k (S j)); [|apply Hu].
  destruct (base_fp (numbers_of (3 * S j) t i (3 * k + 1)%nat)). lra.
Qed.
Lemma steep_beyond z : -1 <= z <= 1 -> c < Rabs z -> steep (p_nsample P) (p_nmedium P) z.
Proof.
  intros Hz L. destruct HP as (_ & _ & _ & _ & _ & _ & _ & _ & _ & Hm & _). unfold steep.
  assert (Z2 : c ^ 2 < z ^ 2) by (rewrite <- (pow2_abs z); pose proof (Rabs_pos z); nra).
  set (r := p_nmedium P / p_nsample P) in *. assert (Hr : 0 < r) by (apply Rdiv_lt_0_compat; lra).
  assert (Er : p_nmedium P = p_nsample P * r) by (unfold r; field; lra). rewrite Er. apply Rmult_lt_compat_l; [lra|].
  rewrite <- (sqrt_Rsqr r) by lra. rewrite Rsqr_pow2. apply sqrt_lt_1_alt. nra.
Qed.
Lemma same_dir t i k : (k <= S j)%nat -> scat_dir (k0 i) (d_ang (E t) i) k = W (polar p lo) (k0 i) (numbers_of (3 * S j) t i) k.
Proof.
  induction k as [|k IH]; intros Hk; [reflexivity|]. unfold W in *. cbn [scat_dir]. rewrite IH by lia. cbn [with_scatterings d_ang].
  rewrite (proj2 (Nat.ltb_lt k (S j))) by lia. rewrite angle_split. reflexivity.
Qed.
Lemma still_le t i : still (film_view P (fl_traj (S (S j)) spot tmin tmax pmin pmax mu P (E t) i))
  <= Pr (polar p lo) (k0 i) mu (p_thickness P) c Rabs (numbers_of (3 * S j) t i) j.
Proof.
  set (s := numbers_of (3 * S j) t i). set (a := still _).
  pose proof (Pr_01 (polar p lo) (k0 i) mu (p_thickness P) c Rabs s j) as P01.
  destruct (Req_dec a 0) as [->|Na]; [lra|].
  assert (A1 : a <= 1) by (unfold a, still; destruct (Nat.eqb _ _); lra).
  assert (Q : forall m, (m <= j)%nat -> Pr (polar p lo) (k0 i) mu (p_thickness P) c Rabs s m = 1).
  { induction m as [|m IH]; intros Hm; [reflexivity|]. cbn [Pr]. rewrite IH by lia.
    unfold stays, stays_if. set (z := Z _ _ _ _). destruct (Rltb c (Rabs z)) eqn:E1; cbn [andb]; [|ring]. apply Rltb_true in E1.
    assert (U0 : vx (k0 i) ^ 2 + vy (k0 i) ^ 2 + vz (k0 i) ^ 2 = 1).
    { destruct (fl_entry_some tmin tmax pmin pmax P HP D i) as (th & _ & U & _). unfold unit, dot in U. rewrite <- U. ring. }
    assert (Hz : -1 <= z <= 1) by (apply Z_range; exact U0).
    pose proof (no_leave (S (S j)) spot tmin tmax pmin pmax mu P (E t) ltac:(lia) Hmu HP (E_ok t) i (S (S m)) Na ltac:(lia)) as L. cbv zeta in L.
    change (fl_dir tmin tmax pmin pmax P (E t) i) with (k0 i) in L. rewrite same_dir in L by lia. fold s in L.
    change (vz (W (polar p lo) (k0 i) s (S (S m)))) with z in L. specialize (L (steep_beyond z Hz E1)).
    change (d_u (E t) (S (S m)) i) with (if Nat.ltb (S m) (S j) then frac_part (s (3 * S m + 1)%nat) else d_u D (S (S m)) i) in L.
    rewrite (proj2 (Nat.ltb_lt (S m) (S j))) in L by lia. rewrite (proj2 (Rltb_false _ _)) by (left; exact L). ring. }
  rewrite Q by lia. exact A1.
Qed.
Lemma stay_mean : reaches p lo c beta ->
  exists F, (forall t, total (map (fun i => still (film_view P (fl_traj (S (S j)) spot tmin tmax pmin pmax mu P (E t) i))) (seq 0 n)) / INR n <= F t)
    /\ is_mean (n * (3 * S j)) F (stay_rate mu (p_thickness P) c beta ^ j).
Proof.
  intros HR. pose proof (reaches_le_1 c beta HR) as B1. destruct HR as (h & Hh & H1 & H0 & Hb). assert (HI : 0 < INR n) by now apply lt_0_INR.
  pose proof HP as (_ & _ & _ & _ & _ & _ & _ & Hth & _).
  set (V := fun z => RInt (after_scattering p lo h z) 0 1).
  assert (HV : forall k th, vx k ^ 2 + vy k ^ 2 + vz k ^ 2 = 1 ->
    is_RInt (fun x => average p lo (fun th' => h (- vx (scatter1 k th (2 * PI * x)) * sin th' + vz (scatter1 k th (2 * PI * x)) * cos th'))) 0 1 (V (- vx k * sin th + vz k * cos th)))
    by (intros k th Hk; apply after_scatter; assumption).
  assert (HVb : forall z, -1 <= z <= 1 -> beta <= V z) by (intros z Hz; exact (Hb z _ Hz (after_integral p lo h z Hh))).
  assert (U0 : forall i, vx (k0 i) ^ 2 + vy (k0 i) ^ 2 + vz (k0 i) ^ 2 = 1).
  { intros i. destruct (fl_entry_some tmin tmax pmin pmax P HP D i) as (th & _ & U & _). unfold unit, dot in U. rewrite <- U. ring. }
  set (g := fun i (s : nat -> R) => G (polar p lo) (k0 i) mu (p_thickness P) c beta h V Rabs c s j).
  exists (fun t => / INR n * sums_i (3 * S j) g n t). split.
  - intros t. unfold Rdiv. rewrite Rmult_comm. apply Rmult_le_compat_l; [left; now apply Rinv_0_lt_compat|].
    unfold sums_i. generalize (seq 0 n). intros l; induction l as [|i l IH]; cbn [map total]; [lra|]. apply Rplus_le_compat; [|exact IH].
    apply Rle_trans with (1 := still_le t i). unfold g. apply Pr_le; try assumption; first [apply U0|lra|intros; lra].
  - replace (stay_rate mu (p_thickness P) c beta ^ j) with (/ INR n * total (map (fun _ : nat => stay_rate mu (p_thickness P) c beta ^ j) (seq 0 n))).
    2: { rewrite total_map_const, seq_length. field. lra. }
    apply is_mean_scal, sums_i_mean. intros i _. unfold g. apply (G_mean3 (polar p lo) (average p lo)); try assumption; first [apply polar_integral; assumption|apply U0|lra|intros; lra].
Qed.
End Runs.
End Table.
