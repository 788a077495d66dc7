(** Lemmas for C164: Hoeffding's inequality. *)
From Coq Require Import Lra Lia Psatz Reals List FunctionalExtensionality.
From Verif Require Import Num Spec Spec_mean Spec_estimate Spec_enough L_num L_mean L_periodic L_estimate.
From Coquelicot Require Import Coquelicot.
Import ListNotations.
Open Scope R_scope.

(** ** A single bounded variable *)
Section Bernoulli.
Variable m : R.
Hypothesis Hm : 0 <= m <= 1.
Let D (x : R) : R := 1 - m + m * exp x.
Let p (x : R) : R := m * exp x / D x.
Lemma D_pos x : 0 < D x.
Proof.
  unfold D. pose proof (exp_pos x). destruct (Req_dec m 0) as [->|N]; [lra|].
  assert (0 < m * exp x) by (apply Rmult_lt_0_compat; lra). lra.
Qed.
Lemma p_derive x : is_derive p x (p x * (1 - p x)).
Proof.
  pose proof (D_pos x) as H. unfold p, D in *. auto_derive; [lra|]. field. lra.
Qed.
Lemma p_var x : p x * (1 - p x) <= 1 / 4.
Proof. pose proof (pow2_ge_0 (p x - 1 / 2)). nra. Qed.
Lemma p_0 : p 0 = m.
Proof. unfold p, D. rewrite exp_0. field. lra. Qed.
Let phi (x : R) : R := m * x + x ^ 2 / 8 - ln (D x).
Lemma phi_derive x : is_derive phi x (m + x / 4 - p x).
Proof.
  pose proof (D_pos x) as H. unfold phi, p, D in *. auto_derive; [lra|]. field. lra.
Qed.
Lemma slope_derive x : is_derive (fun x => m + x / 4 - p x) x (1 / 4 - p x * (1 - p x)).
Proof.
  assert (A : is_derive (fun x : R => m + x / 4) x (1 / 4)) by (auto_derive; [trivial | field]).
  exact (is_derive_minus _ _ _ _ _ A (p_derive x)).
Qed.
Lemma slope_nonneg x : 0 <= x -> 0 <= m + x / 4 - p x.
Proof.
  intros Hx. destruct (MVT_gen (fun x => m + x / 4 - p x) 0 x (fun x => 1 / 4 - p x * (1 - p x))) as (c & Hc & E).
  - intros y _. apply slope_derive.
  - intros y _. apply continuity_pt_filterlim. apply (ex_derive_continuous (fun x => m + x / 4 - p x)). eexists. apply slope_derive.
  - rewrite p_0 in E. pose proof (p_var c). nra.
Qed.
Lemma bernoulli_pos x : 0 <= x -> D x <= exp (m * x + x ^ 2 / 8).
Proof.
  intros Hx. destruct (MVT_gen phi 0 x (fun x => m + x / 4 - p x)) as (c & Hc & E).
  - intros y _. apply phi_derive.
  - intros y _. apply continuity_pt_filterlim. apply (ex_derive_continuous phi). eexists. apply phi_derive.
  - rewrite Rmin_left, Rmax_right in Hc by lra.
    assert (P0 : phi 0 = 0).
    { unfold phi, D. rewrite exp_0. replace (1 - m + m * 1) with 1 by ring. rewrite ln_1. field. }
    pose proof (slope_nonneg c ltac:(lra)) as S0. rewrite P0 in E.
    assert (0 <= phi x) by nra. unfold phi in H.
    rewrite <- (exp_ln (D x)) by apply D_pos.
    destruct (Req_dec (ln (D x)) (m * x + x ^ 2 / 8)) as [-> |N]; [lra|].
    left. apply exp_increasing. lra.
Qed.
End Bernoulli.
Lemma bernoulli m x : 0 <= m <= 1 -> 1 - m + m * exp x <= exp (m * x + x ^ 2 / 8).
Proof.
  intros Hm. destruct (Rle_lt_dec 0 x) as [L|L]; [now apply bernoulli_pos|].
  pose proof (bernoulli_pos (1 - m) ltac:(lra) (- x) ltac:(lra)) as Q. cbv beta zeta in Q.
  assert (E : exp x * exp (- x) = 1) by (rewrite <- exp_plus; replace (x + - x) with 0 by ring; apply exp_0).
  replace (m * x + x ^ 2 / 8) with (x + ((1 - m) * - x + (- x) ^ 2 / 8)) by field.
  rewrite exp_plus. pose proof (exp_pos x).
  apply Rle_trans with (exp x * (1 - (1 - m) + (1 - m) * exp (- x))).
  - right. rewrite Rmult_plus_distr_l. replace (exp x * ((1 - m) * exp (- x))) with ((1 - m) * (exp x * exp (- x))) by ring.
    rewrite E. ring.
  - apply Rmult_le_compat_l; lra.
Qed.
Lemma chord g x : 0 <= g <= 1 -> exp (x * g) <= 1 - g + g * exp x.
Proof.
  intros Hg. pose proof (exp_pos (x * g)) as E0.
  assert (A : exp (x * g) * (1 - x * g) <= 1).
  { pose proof (exp_ineq1_le (- (x * g))) as Q.
    assert (E : exp (x * g) * exp (- (x * g)) = 1) by (rewrite <- exp_plus; replace (x * g + - (x * g)) with 0 by ring; apply exp_0).
    nra. }
  assert (B : exp (x * g) * (1 + x * (1 - g)) <= exp x).
  { pose proof (exp_ineq1_le (x * (1 - g))) as Q.
    replace (exp x) with (exp (x * g) * exp (x * (1 - g))) by (rewrite <- exp_plus; f_equal; ring).
    apply Rmult_le_compat_l; lra. }
  pose proof (Rmult_le_compat_l (1 - g) _ _ ltac:(lra) A). pose proof (Rmult_le_compat_l g _ _ ltac:(lra) B). nra.
Qed.

(** ** Products over independent blocks *)
Definition prods (K : nat) (f : (nat -> R) -> R) (n : nat) (t : nat -> R) : R :=
  fold_right Rmult 1 (map (fun i => f (numbers_of K t i)) (seq 0 n)).
Lemma prods_S K f n t : prods K f (S n) t = prods K f n t * f (shift (n * K) K t).
Proof.
  unfold prods. rewrite seq_S, map_app. change (0 + n)%nat with n.
  assert (E : forall l m : list R, fold_right Rmult 1 (l ++ m) = fold_right Rmult 1 l * fold_right Rmult 1 m).
  { induction l as [|a l IH]; intros q; cbn [app fold_right]; [ring|rewrite IH; ring]. }
  rewrite E. change (fold_right Rmult 1 (map _ (cons n nil))) with (f (shift (n * K) K t) * 1). ring.
Qed.
Lemma prods_dep K f n : dep (n * K) (prods K f n).
Proof.
  intros t t' H. unfold prods. f_equal. apply map_ext_in. intros i Hi. apply in_seq in Hi. f_equal.
  apply functional_extensionality. intros k. unfold numbers_of. destruct (Nat.ltb_spec k K); [|reflexivity]. apply H. nia.
Qed.
Lemma prods_mean K f M n : is_mean K f M -> is_mean (n * K) (prods K f n) (M ^ n).
Proof.
  intros Hf. induction n as [|n IH].
  - cbn [Nat.mul is_mean]. intros t. reflexivity.
  - replace (S n * K)%nat with (n * K + K)%nat by lia.
    apply (is_mean_ext _ (fun t => 0 + prods K f n t * f (shift (n * K) K t) + 0)); [intros t; rewrite prods_S; ring|].
    apply (block_mean K f (fun _ => 0) M 0 Hf (is_mean_const K 0) (n * K) (fun _ => 0) (prods K f n)).
    + intros t t' _. reflexivity.
    + apply prods_dep.
    + pose proof (is_mean_scal _ M _ _ IH) as Q. cbn [pow]. revert Q. apply is_mean_ext. intros t. ring.
Qed.

(** ** The tails *)
Lemma sums_exp K g n x t : (forall s, 0 <= g s <= 1) -> exp (x * sums K g n t) <= prods K (fun s => 1 - g s + g s * exp x) n t.
Proof.
  intros Hg. unfold sums, prods. generalize (seq 0 n). intros l. induction l as [|i l IH].
  - cbn. rewrite Rmult_0_r, exp_0. lra.
  - cbn [map total fold_right]. rewrite Rmult_plus_distr_l, exp_plus.
    apply Rmult_le_compat; [left; apply exp_pos|left; apply exp_pos|apply chord; apply Hg|exact IH].
Qed.
Lemma side_bound K g n x c t : (forall s, 0 <= g s <= 1) -> 0 <= x * (sums K g n t - c) ->
  1 <= exp (- (x * c)) * prods K (fun s => 1 - g s + g s * exp x) n t.
Proof.
  intros Hg Hs. pose proof (sums_exp K g n x t Hg) as Q. pose proof (exp_pos (- (x * c))) as P0.
  apply Rle_trans with (exp (- (x * c)) * exp (x * sums K g n t)); [|apply Rmult_le_compat_l; lra].
  rewrite <- exp_plus. replace (- (x * c) + x * sums K g n t) with (x * (sums K g n t - c)) by ring.
  rewrite <- exp_0 at 1. destruct Hs as [Hs|Hs]; [left; now apply exp_increasing|right; now rewrite <- Hs].
Qed.
Lemma prods_nonneg K g n x t : (forall s, 0 <= g s <= 1) -> 0 <= prods K (fun s => 1 - g s + g s * exp x) n t.
Proof. intros Hg. eapply Rle_trans; [|apply sums_exp; exact Hg]. left. apply exp_pos. Qed.

Lemma pow_exp a n : exp a ^ n = exp (INR n * a).
Proof.
  induction n as [|n IH]; [cbn; now rewrite Rmult_0_l, exp_0|].
  rewrite S_INR. cbn [pow]. rewrite IH, <- exp_plus. f_equal. ring.
Qed.
Lemma mean_01 K g m : (forall s, 0 <= g s <= 1) -> is_mean K g m -> 0 <= m <= 1.
Proof.
  intros Hg M. split.
  - apply (is_mean_le K (fun _ => 0) g); [intros; apply Hg|apply is_mean_const|exact M].
  - apply (is_mean_le K g (fun _ => 1)); [intros; apply Hg|exact M|apply is_mean_const].
Qed.
Lemma side_mean K g m n x eps : (forall s, 0 <= g s <= 1) -> is_mean K g m -> x ^ 2 = 16 * eps ^ 2 ->
  exists z, is_mean (n * K) (fun t => exp (- (x * (INR n * (m + x / 4)))) * prods K (fun s => 1 - g s + g s * exp x) n t) z
    /\ z <= exp (- (2 * INR n * eps ^ 2)).
Proof.
  intros Hg M Hx. pose proof (mean_01 K g m Hg M) as Hm.
  assert (F : is_mean K (fun s => 1 - g s + g s * exp x) (1 - m + m * exp x)).
  { pose proof (is_mean_plus _ _ _ _ _ (is_mean_const K 1) (is_mean_scal K (exp x - 1) _ _ M)) as Q.
    replace (1 - m + m * exp x) with (1 + (exp x - 1) * m) by ring. revert Q. apply is_mean_ext. intros s. ring. }
  eexists. split; [apply is_mean_scal; apply prods_mean; exact F|].
  pose proof (exp_pos x) as Ex.
  apply Rle_trans with (exp (- (x * (INR n * (m + x / 4)))) * exp (m * x + x ^ 2 / 8) ^ n).
  - apply Rmult_le_compat_l; [left; apply exp_pos|]. apply pow_incr. split; [|now apply bernoulli].
    assert (0 <= m * exp x) by (apply Rmult_le_pos; lra). lra.
  - right. rewrite pow_exp, <- exp_plus. f_equal. rewrite Hx.
    replace (- (x * (INR n * (m + x / 4))) + INR n * (m * x + 16 * eps ^ 2 / 8))
      with (- (INR n * (x ^ 2 / 4)) + INR n * (2 * eps ^ 2)) by field. rewrite Hx. field.
Qed.

(** A function that is at least 1 where the average is off by eps, with a small
    mean. *)
Lemma hoeffding K g m n F eps : (0 < n)%nat -> (forall s, 0 <= g s <= 1) -> (forall t, F t = sums K g n t / INR n) ->
  is_mean K g m -> 0 < eps ->
  exists Z z, (forall t, 0 <= Z t) /\ (forall t, eps <= Rabs (F t - m) -> 1 <= Z t)
    /\ is_mean (n * K) Z z /\ z <= 2 * exp (- (2 * INR n * eps ^ 2)).
Proof.
  intros Hn Hg HF M He. assert (HI : 0 < INR n) by now apply lt_0_INR.
  destruct (side_mean K g m n (4 * eps) eps Hg M ltac:(ring)) as (z1 & M1 & B1).
  destruct (side_mean K g m n (- (4 * eps)) eps Hg M ltac:(ring)) as (z2 & M2 & B2).
  do 2 eexists. split; [|split; [|split; [exact (is_mean_plus _ _ _ _ _ M1 M2)|lra]]].
  - intros t. pose proof (prods_nonneg K g n (4 * eps) t Hg). pose proof (prods_nonneg K g n (- (4 * eps)) t Hg).
    apply Rplus_le_le_0_compat; (apply Rmult_le_pos; [left; apply exp_pos|assumption]).
  - intros t Ht. cbv beta.
    pose proof (prods_nonneg K g n (4 * eps) t Hg) as N1. pose proof (prods_nonneg K g n (- (4 * eps)) t Hg) as N2.
    assert (ES : sums K g n t = INR n * F t) by (rewrite HF; field; lra).
    destruct (Rle_lt_dec 0 (F t - m)) as [L|L].
    + rewrite Rabs_pos_eq in Ht by exact L.
      assert (1 <= exp (- (4 * eps * (INR n * (m + 4 * eps / 4)))) * prods K (fun s => 1 - g s + g s * exp (4 * eps)) n t).
      { apply (side_bound K g n (4 * eps) _ t Hg). rewrite ES. apply Rmult_le_pos; [lra|].
        replace (_ - _) with (INR n * (F t - m - eps)) by field. apply Rmult_le_pos; lra. }
      pose proof (Rmult_le_pos _ _ (Rlt_le _ _ (exp_pos (- (- (4 * eps) * (INR n * (m + - (4 * eps) / 4)))))) N2). lra.
    + rewrite Rabs_left in Ht by exact L.
      assert (1 <= exp (- (- (4 * eps) * (INR n * (m + - (4 * eps) / 4)))) * prods K (fun s => 1 - g s + g s * exp (- (4 * eps))) n t).
      { apply (side_bound K g n (- (4 * eps)) _ t Hg). rewrite ES.
        replace (- (4 * eps) * (INR n * F t - INR n * (m + - (4 * eps) / 4)))
          with (4 * eps * (INR n * (m - F t - eps))) by field.
        apply Rmult_le_pos; [lra|]. apply Rmult_le_pos; lra. }
      pose proof (Rmult_le_pos _ _ (Rlt_le _ _ (exp_pos (- (4 * eps * (INR n * (m + 4 * eps / 4)))))) N1). lra.
Qed.

Lemma dominated N (A : (nat -> R) -> Prop) Z z b : (forall t, 0 <= Z t) -> (forall t, A t -> 1 <= Z t) -> is_mean N Z z -> z <= b -> rare N A b.
Proof. intros H0 H1 M B. exists Z, z. auto. Qed.
(** So does every part of A that has a probability. *)
Lemma rare_part N A b h q : rare N A b -> (forall t, 0 <= h t <= 1) -> (forall t, h t <> 0 -> A t) -> is_mean N h q -> q <= b.
Proof.
  intros (Z & z & H0 & H1 & M & B) Hh HA Mh. apply Rle_trans with z; [|exact B].
  apply (is_mean_le N h Z); [|exact Mh|exact M]. intros t _.
  destruct (Req_dec (h t) 0) as [->|E]; [apply H0|]. pose proof (H1 t (HA t E)). pose proof (Hh t). lra.
Qed.
Lemma rare_le N A b c : rare N A b -> b <= c -> rare N A c.
Proof. intros (Z & z & H0 & H1 & M & B) L. exists Z, z. repeat split; auto. lra. Qed.
