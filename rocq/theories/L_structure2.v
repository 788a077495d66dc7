(** Lemmas on the paracrystal, tabulated and polydisperse structure factors. *)
From Verif Require Import Num L_num M_refractive_index M_structure Spec_optics L_interp.
From Coq Require Import Lra Lia Psatz.
From Coquelicot Require Import Complex.
Open Scope R_scope.

(** ** Paracrystal. *)

Lemma para_r_bounds : forall q phi sigma, 0 < q -> 0 < sigma ->
  0 < para_r q phi sigma < 1.
Proof.
  intros q phi sigma Hq Hs. unfold para_r.
  assert (P : 0 < Rpower phi (- (1 / 3))) by apply exp_pos.
  set (x := q * Rpower phi (- (1 / 3)) * sigma).
  assert (X : 0 < x) by (unfold x; repeat apply Rmult_lt_0_compat; assumption).
  split; [apply exp_pos|].
  rewrite <- exp_0. apply exp_increasing. nra.
Qed.

Lemma para_shape : forall r c, 0 < r < 1 -> -1 <= c <= 1 ->
  0 < 1 + r ^ 2 - 2 * r * c /\
  (1 - r) / (1 + r) <= (1 - r ^ 2) / (1 + r ^ 2 - 2 * r * c) <= (1 + r) / (1 - r).
Proof.
  intros r c Hr Hc.
  assert (D : 0 < 1 + r ^ 2 - 2 * r * c) by nra.
  split; [assumption|]. split.
  - apply (Rmult_le_reg_r (1 + r)); [lra|].
    unfold Rdiv at 1. rewrite Rmult_assoc, Rinv_l, Rmult_1_r by lra.
    apply (Rmult_le_reg_r (1 + r ^ 2 - 2 * r * c)); [assumption|].
    replace ((1 - r ^ 2) / (1 + r ^ 2 - 2 * r * c) * (1 + r) * (1 + r ^ 2 - 2 * r * c))
      with ((1 - r ^ 2) * (1 + r)) by (field; lra).
    assert (0 <= (1 - r) * (2 * r * (1 + c))) by (apply Rmult_le_pos; nra). nra.
  - apply (Rmult_le_reg_r (1 - r)); [lra|].
    unfold Rdiv at 2. rewrite (Rmult_assoc (1 + r)), Rinv_l, Rmult_1_r by lra.
    apply (Rmult_le_reg_r (1 + r ^ 2 - 2 * r * c)); [assumption|].
    replace ((1 - r ^ 2) / (1 + r ^ 2 - 2 * r * c) * (1 - r) * (1 + r ^ 2 - 2 * r * c))
      with ((1 - r ^ 2) * (1 - r)) by (field; lra).
    assert (0 <= (1 + r) * (2 * r * (1 - c))) by (apply Rmult_le_pos; nra). nra.
Qed.

Lemma factor_para_value : forall q phi sigma, 0 < q -> 0 < sigma ->
  let r := para_r q phi sigma in
  exists S, factor_para q phi sigma = Some S /\ 0 < S /\
            (1 - r) / (1 + r) <= S <= (1 + r) / (1 - r).
Proof.
  intros q phi sigma Hq Hs r.
  pose proof (para_r_bounds q phi sigma Hq Hs) as Hr. fold r in Hr.
  pose proof (para_shape r (cos (q * Rpower phi (- (1 / 3)))) Hr (COS_bound _)) as [D B].
  eexists. split; [unfold factor_para, ndiv; fold r; rewrite (proj2 (Reqb_false _ _)) by lra;
                   reflexivity|].
  split; [|exact B].
  apply Rmult_lt_0_compat; [nra | apply Rinv_0_lt_compat; exact D].
Qed.

Lemma exp_small : forall eps, 0 < eps -> exists M, 0 < M /\ forall x, M < x -> exp (- x ^ 2 / 2) < eps.
Proof.
  intros eps He. exists (2 + 2 / eps).
  assert (0 < 2 / eps) by (apply Rmult_lt_0_compat; [lra|apply Rinv_0_lt_compat; lra]).
  split; [lra|]. intros x Hx.
  replace (- x ^ 2 / 2) with (- (x ^ 2 / 2)) by field.
  rewrite exp_Ropp.
  assert (1 / eps < exp (x ^ 2 / 2)).
  { apply Rlt_trans with (x ^ 2 / 2); [|].
    - replace (1 / eps) with (2 / eps / 2) by (field; lra). nra.
    - assert (0 < x ^ 2 / 2) by nra. pose proof (exp_ineq1 (x ^ 2 / 2) ltac:(lra)). lra. }
  replace eps with (/ (1 / eps)) by (field; lra).
  apply Rinv_lt_contravar; [|assumption].
  apply Rmult_lt_0_compat; [apply Rmult_lt_0_compat; [lra|apply Rinv_0_lt_compat; lra]|apply exp_pos].
Qed.

Lemma factor_para_disorder : forall q phi, 0 < q -> forall eps, 0 < eps ->
  exists s0, 0 < s0 /\ forall sigma, s0 < sigma ->
    exists S, factor_para q phi sigma = Some S /\ Rabs (S - 1) < eps.
Proof.
  intros q phi Hq eps He.
  assert (P : 0 < Rpower phi (- (1 / 3))) by apply exp_pos.
  set (k := q * Rpower phi (- (1 / 3))).
  assert (K : 0 < k) by (unfold k; apply Rmult_lt_0_compat; assumption).
  set (e := Rmin (1 / 2) (eps / 8)).
  assert (E : 0 < e) by (unfold e; apply Rmin_pos; lra).
  assert (E1 : e <= 1 / 2) by apply Rmin_l.
  assert (E2 : e <= eps / 8) by apply Rmin_r.
  destruct (exp_small e E) as [M [HM HMx]].
  exists (M / k). split; [apply Rmult_lt_0_compat; [lra|apply Rinv_0_lt_compat; lra]|].
  intros sigma Hs.
  assert (Hs0 : 0 < sigma).
  { assert (0 < M / k) by (apply Rmult_lt_0_compat; [lra|apply Rinv_0_lt_compat; lra]). lra. }
  destruct (factor_para_value q phi sigma Hq Hs0) as [S [HS [_ B]]].
  exists S. split; [exact HS|].
  pose proof (para_r_bounds q phi sigma Hq Hs0) as Hr.
  assert (R0 : para_r q phi sigma < e).
  { unfold para_r. apply HMx. fold k.
    apply (Rmult_lt_compat_r k) in Hs; [|assumption].
    unfold Rdiv in Hs. rewrite Rmult_assoc, Rinv_l in Hs by lra. lra. }
  set (r := para_r q phi sigma) in *.
  assert (L : 1 - 2 * r <= (1 - r) / (1 + r)).
  { apply (Rmult_le_reg_r (1 + r)); [lra|].
    unfold Rdiv. rewrite Rmult_assoc, Rinv_l by lra. nra. }
  assert (U : (1 + r) / (1 - r) <= 1 + 4 * r).
  { apply (Rmult_le_reg_r (1 - r)); [lra|].
    unfold Rdiv. rewrite Rmult_assoc, Rinv_l by lra. nra. }
  apply Rabs_def1; lra.
Qed.

(** ** Tabulated structure factor. *)

Lemma factor_data_in : forall t q v, interp_linear t q = Some v -> factor_data t q = Ok v.
Proof.
  intros [|[x0 y0] r] q v H; [discriminate|]. unfold factor_data. rewrite H. reflexivity.
Qed.

Lemma factor_data_out : forall t q, t <> [] -> interp_linear t q = None ->
  factor_data t q = Ok (snd (nth 0 t (0, 0))).
Proof.
  intros [|[x0 y0] r] q Ht H; [congruence|]. unfold factor_data. rewrite H. reflexivity.
Qed.

Lemma factor_data_table : forall t i, increasing t -> (2 <= length t)%nat ->
  (i < length t)%nat -> factor_data t (fst (nth i t (0, 0))) = Ok (snd (nth i t (0, 0))).
Proof. intros. apply factor_data_in, interp_linear_table; assumption. Qed.

Lemma factor_data_between : forall t i q, increasing t -> (S i < length t)%nat ->
  fst (nth i t (0, 0)) <= q <= fst (nth (S i) t (0, 0)) ->
  exists v, factor_data t q = Ok v /\
            between (snd (nth i t (0, 0))) (snd (nth (S i) t (0, 0))) v.
Proof.
  intros t i q Hinc Hi Hq. eexists. split.
  - apply factor_data_in, (interp_linear_chord t i); assumption.
  - apply chord_between; [apply Hinc; assumption|assumption].
Qed.

Lemma factor_data_range : forall t q lo hi, increasing t -> (2 <= length t)%nat ->
  (forall p, In p t -> lo <= snd p <= hi) ->
  exists v, factor_data t q = Ok v /\ lo <= v <= hi.
Proof.
  intros t q lo hi Hinc Hl Hr.
  assert (Hn : forall i, (i < length t)%nat -> lo <= snd (nth i t (0, 0)) <= hi)
    by (intros i Hi; apply Hr, nth_In; assumption).
  assert (Ht : t <> []) by (intro; subst t; cbn in Hl; lia).
  destruct (Rlt_dec q (fst (nth 0 t (0, 0)))) as [A|A].
  - eexists. split; [apply factor_data_out; [assumption|apply interp_linear_outside; auto]|].
    apply Hn; lia.
  - destruct (Rlt_dec (fst (nth (length t - 1) t (0, 0))) q) as [B|B].
    + eexists. split; [apply factor_data_out; [assumption|apply interp_linear_outside; auto]|].
      apply Hn; lia.
    + destruct (segment_exists t q Hl ltac:(lra)) as [i [Hi Hq]].
      destruct (factor_data_between t i q Hinc Hi Hq) as [v [Hv Bv]].
      exists v. split; [exact Hv|].
      pose proof (Hn i ltac:(lia)). pose proof (Hn (S i) Hi).
      unfold between, Rmin, Rmax in Bv.
      destruct (Rle_dec (snd (nth i t (0, 0))) (snd (nth (S i) t (0, 0)))); lra.
Qed.

Lemma factor_data_outside : forall t q, t <> [] ->
  q < fst (nth 0 t (0, 0)) \/ fst (nth (length t - 1) t (0, 0)) < q ->
  factor_data t q = Ok (snd (nth 0 t (0, 0))).
Proof. intros. apply factor_data_out; [assumption|apply interp_linear_outside; assumption]. Qed.
