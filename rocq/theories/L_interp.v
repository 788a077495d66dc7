(** Piecewise-linear interpolation. *)
From Coq Require Import Lra Lia Psatz.
From Verif Require Import L_num M_refractive_index Spec_optics.
Open Scope R_scope.

Lemma increasing_tail : forall p t, increasing (p :: t) -> increasing t.
Proof. intros p t H i Hi. apply (H (S i)). cbn; lia. Qed.

Lemma increasing_le : forall t i j, increasing t -> (i <= j)%nat -> (j < length t)%nat ->
  fst (nth i t (0, 0)) <= fst (nth j t (0, 0)).
Proof.
  intros t i j H Hij Hj. induction Hij; [lra|].
  specialize (IHHij ltac:(lia)). specialize (H m Hj). lra.
Qed.

Lemma increasing_lt : forall t i j, increasing t -> (i < j)%nat -> (j < length t)%nat ->
  fst (nth i t (0, 0)) < fst (nth j t (0, 0)).
Proof.
  intros t i j H Hij Hj.
  pose proof (increasing_le t (S i) j H ltac:(lia) Hj).
  pose proof (H i ltac:(lia)). lra.
Qed.

Lemma table_last_nth : forall t, t <> [] ->
  table_last t = fst (nth (length t - 1) t (0, 0)).
Proof.
  intros t Ht. unfold table_last. f_equal.
  induction t as [|a t IH]; [congruence|].
  destruct t as [|b t]; [reflexivity|].
  replace (length (a :: b :: t) - 1)%nat with (S (length (b :: t) - 1)) by (cbn; lia).
  transitivity (last (b :: t) (0, 0)); [reflexivity|].
  rewrite IH by discriminate. reflexivity.
Qed.

Lemma interp_seg_chord : forall rest x0 y0 i x,
  increasing ((x0, y0) :: rest) -> (i < length rest)%nat ->
  fst (nth i ((x0, y0) :: rest) (0, 0)) <= x <= fst (nth (S i) ((x0, y0) :: rest) (0, 0)) ->
  interp_seg x0 y0 rest x =
  chord (nth i ((x0, y0) :: rest) (0, 0)) (nth (S i) ((x0, y0) :: rest) (0, 0)) x.
Proof.
  induction rest as [|[x1 y1] rest IH]; intros x0 y0 i x Hinc Hi Hx; [cbn in Hi; lia|].
  cbn [interp_seg]. pose proof (Hinc 0%nat ltac:(cbn; lia)) as H01. cbn [nth fst] in H01.
  destruct i as [|i].
  - cbn [nth fst] in Hx. replace (Rleb x x1) with true by (symmetry; apply Rleb_true; lra).
    unfold chord; cbn [nth fst snd]. field. lra.
  - cbn [nth length] in Hx, Hi |- *.
    destruct (Rleb x x1) eqn:E.
    + apply Rleb_true in E.
      destruct i as [|i].
      * cbn [nth fst] in Hx. assert (x = x1) by lra. subst x.
        unfold chord; cbn [nth fst snd].
        destruct rest as [|[x2 y2] rest]; [cbn in Hi; lia|].
        pose proof (Hinc 1%nat ltac:(cbn; lia)) as H12. cbn [nth fst] in H12.
        cbn [nth fst snd]. field. lra.
      * exfalso. pose proof (increasing_lt _ 1 (S (S i)) Hinc ltac:(lia) ltac:(cbn; lia)) as K.
        cbn [nth fst] in K, Hx. lra.
    + apply Rleb_false in E.
      apply (IH x1 y1 i x); [exact (increasing_tail _ _ Hinc) | lia | exact Hx].
Qed.

Lemma interp_linear_chord : forall t i x,
  increasing t -> (S i < length t)%nat ->
  fst (nth i t (0, 0)) <= x <= fst (nth (S i) t (0, 0)) ->
  interp_linear t x = Some (chord (nth i t (0, 0)) (nth (S i) t (0, 0)) x).
Proof.
  intros t i x Hinc Hi Hx. destruct t as [|[x0 y0] rest]; [cbn in Hi; lia|].
  unfold interp_linear. rewrite table_last_nth by discriminate.
  pose proof (increasing_le _ 0 i Hinc ltac:(lia) ltac:(lia)) as H0.
  pose proof (increasing_le _ (S i) (length ((x0, y0) :: rest) - 1) Hinc
                ltac:(lia) ltac:(lia)) as H1.
  change (fst (nth 0 ((x0, y0) :: rest) (0, 0))) with x0 in H0.
  replace (Rltb x x0) with false by (symmetry; apply Rltb_false; lra).
  rewrite (proj2 (Rltb_false _ x) (Rle_trans _ _ _ (proj2 Hx) H1)).
  cbn [orb]. f_equal. apply interp_seg_chord; [assumption | cbn in Hi; lia | assumption].
Qed.

Lemma interp_linear_outside : forall t x,
  t <> [] ->
  x < fst (nth 0 t (0, 0)) \/ fst (nth (length t - 1) t (0, 0)) < x ->
  interp_linear t x = None.
Proof.
  intros [|[x0 y0] rest] x Ht Hx; [congruence|].
  unfold interp_linear. rewrite table_last_nth by assumption.
  destruct Hx as [Hx|Hx].
  - cbn [nth fst] in Hx.
    replace (Rltb x x0) with true by (symmetry; apply Rltb_true; lra). reflexivity.
  - rewrite (proj2 (Rltb_true _ _) Hx). rewrite Bool.orb_true_r. reflexivity.
Qed.

(** Inside the table there is a segment. *)
Lemma segment_exists : forall t x,
  (2 <= length t)%nat ->
  fst (nth 0 t (0, 0)) <= x <= fst (nth (length t - 1) t (0, 0)) ->
  exists i, (S i < length t)%nat /\
            fst (nth i t (0, 0)) <= x <= fst (nth (S i) t (0, 0)).
Proof.
  induction t as [|p t IH]; intros x Hl Hx; [cbn in Hl; lia|].
  destruct t as [|q t]; [cbn in Hl; lia|].
  destruct (Rle_lt_dec x (fst q)) as [L|G].
  - exists 0%nat. cbn [nth length] in *. split; [lia | lra].
  - destruct t as [|r t]; [cbn in Hx; lra|].
    destruct (IH x) as (i & Hi & Hs); [cbn; lia| |].
    + split; [cbn [nth]; lra|].
      replace (length (p :: q :: r :: t) - 1)%nat
        with (S (length (q :: r :: t) - 1)) in Hx by (cbn; lia).
      cbn [nth] in Hx. cbn [nth]. exact (proj2 Hx).
    + exists (S i). split; [cbn in *; lia | exact Hs].
Qed.

Lemma chord_between : forall p q x, fst p < fst q -> fst p <= x <= fst q ->
  between (snd p) (snd q) (chord p q x).
Proof.
  intros [x0 y0] [x1 y1] x H Hx. unfold between, chord; cbn [fst snd] in *.
  set (s := (x - x0) / (x1 - x0)).
  assert (S0 : 0 <= s) by (apply Rmult_le_pos; [lra | left; apply Rinv_0_lt_compat; lra]).
  assert (S1 : s <= 1).
  { apply (Rmult_le_reg_r (x1 - x0)); [lra|]. unfold s.
    unfold Rdiv; rewrite Rmult_assoc, Rinv_l by lra. lra. }
  unfold Rmin, Rmax. destruct (Rle_dec y0 y1); nra.
Qed.

Lemma chord_left : forall p q, fst p < fst q -> chord p q (fst p) = snd p.
Proof. intros [x0 y0] [x1 y1] H; unfold chord; cbn [fst snd] in *. field. lra. Qed.
Lemma chord_right : forall p q, fst p < fst q -> chord p q (fst q) = snd q.
Proof. intros [x0 y0] [x1 y1] H; unfold chord; cbn [fst snd] in *. field. lra. Qed.

Lemma interp_linear_table : forall t i, increasing t -> (2 <= length t)%nat ->
  (i < length t)%nat ->
  interp_linear t (fst (nth i t (0, 0))) = Some (snd (nth i t (0, 0))).
Proof.
  intros t i Hinc Hl Hi. destruct i as [|i].
  - rewrite (interp_linear_chord t 0) by
      (try assumption; try lia; pose proof (Hinc 0%nat ltac:(lia)); lra).
    rewrite chord_left by (apply Hinc; lia). reflexivity.
  - pose proof (Hinc i Hi).
    rewrite (interp_linear_chord t i) by (try assumption; lra).
    rewrite chord_right by assumption. reflexivity.
Qed.
