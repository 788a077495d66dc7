(** Lemmas for the companions of refuted properties (Properties_companion.v). *)
From Coq Require Import Lra Lia Psatz.
From Verif Require Import Num Spec Spec_optics M_montecarlo M_phase_func_sphere M_detector M_refractive_index L_num L_interp L_material.
Open Scope R_scope.

Fixpoint gentle (L x0 y0 : R) (rest : list (R * R)) : Prop :=
  match rest with
  | [] => True
  | (x1, y1) :: t => x0 < x1 /\ Rabs (y1 - y0) <= L * (x1 - x0) /\ gentle L x1 y1 t
  end.

Lemma seg_start x0 y0 rest L : gentle L x0 y0 rest -> interp_seg x0 y0 rest x0 = y0.
Proof.
  destruct rest as [|[x1 y1] t]; [reflexivity|]. intros (H & _). cbn [interp_seg].
  rewrite (proj2 (Rleb_true x0 x1)) by lra. unfold Rdiv. ring.
Qed.

Lemma seg_lipschitz L : 0 <= L -> forall rest x0 y0 x x', gentle L x0 y0 rest -> x0 <= x <= x' ->
  Rabs (interp_seg x0 y0 rest x' - interp_seg x0 y0 rest x) <= L * (x' - x).
Proof.
  intros HL. induction rest as [|[x1 y1] t IH]; intros x0 y0 x x' H Hx.
  - cbn. rewrite Rminus_diag_eq, Rabs_R0 by reflexivity. apply Rmult_le_pos; lra.
  - cbn [gentle] in H. destruct H as (H1 & H2 & H3). cbn [interp_seg].
    assert (S : forall u v, u <= v -> Rabs ((y1 - y0) / (x1 - x0) * (v - u)) <= L * (v - u)).
    { intros u v Huv. rewrite Rabs_mult, (Rabs_right (v - u)) by lra. apply Rmult_le_compat_r; [lra|].
      unfold Rdiv. rewrite Rabs_mult, (Rabs_right (/ (x1 - x0))) by (apply Rle_ge; left; apply Rinv_0_lt_compat; lra).
      apply (Rmult_le_reg_r (x1 - x0)); [lra|]. rewrite Rmult_assoc, Rinv_l by lra. lra. }
    destruct (Rle_dec x' x1) as [A|A].
    + rewrite (proj2 (Rleb_true x' x1)), (proj2 (Rleb_true x x1)) by lra.
      replace (y0 + (y1 - y0) / (x1 - x0) * (x' - x0) - (y0 + (y1 - y0) / (x1 - x0) * (x - x0)))
        with ((y1 - y0) / (x1 - x0) * (x' - x)) by ring. apply S. lra.
    + rewrite (proj2 (Rleb_false x' x1)) by lra. destruct (Rle_dec x x1) as [B|B].
      * rewrite (proj2 (Rleb_true x x1)) by lra.
        pose proof (IH x1 y1 x1 x' H3 ltac:(lra)) as P. rewrite (seg_start x1 y1 t L H3) in P.
        pose proof (S x x1 B) as Q.
        replace (y0 + (y1 - y0) / (x1 - x0) * (x - x0)) with (y1 - (y1 - y0) / (x1 - x0) * (x1 - x)) by (field; lra).
        replace (interp_seg x1 y1 t x' - (y1 - (y1 - y0) / (x1 - x0) * (x1 - x)))
          with ((interp_seg x1 y1 t x' - y1) + (y1 - y0) / (x1 - x0) * (x1 - x)) by ring.
        pose proof (Rabs_triang (interp_seg x1 y1 t x' - y1) ((y1 - y0) / (x1 - x0) * (x1 - x))). lra.
      * rewrite (proj2 (Rleb_false x x1)) by lra. apply IH; [exact H3|lra].
Qed.

Lemma gentle_table L : forall rest x0 y0, Spec_optics.increasing ((x0, y0) :: rest) ->
  (forall j, (j < length rest)%nat -> Rabs (snd (nth (S j) ((x0, y0) :: rest) (0, 0)) - snd (nth j ((x0, y0) :: rest) (0, 0)))
     <= L * (fst (nth (S j) ((x0, y0) :: rest) (0, 0)) - fst (nth j ((x0, y0) :: rest) (0, 0)))) ->
  gentle L x0 y0 rest.
Proof.
  induction rest as [|[x1 y1] t IH]; intros x0 y0 Hi Hs; [exact I|]. cbn [gentle].
  split; [exact (Hi 0%nat ltac:(cbn; lia))|]. split; [exact (Hs 0%nat ltac:(cbn; lia))|].
  apply IH.
  - intros i H. exact (Hi (S i) ltac:(cbn in *; lia)).
  - intros j H. exact (Hs (S j) ltac:(cbn in *; lia)).
Qed.

Lemma interp_lipschitz L t x x' v v' : 0 <= L -> Spec_optics.increasing t ->
  (forall j, (S j < length t)%nat -> Rabs (snd (nth (S j) t (0, 0)) - snd (nth j t (0, 0)))
     <= L * (fst (nth (S j) t (0, 0)) - fst (nth j t (0, 0)))) ->
  interp_linear t x = Some v -> interp_linear t x' = Some v' -> Rabs (v' - v) <= L * Rabs (x' - x).
Proof.
  intros HL Hi Hs E E'. destruct t as [|[x0 y0] rest]; [discriminate|]. unfold interp_linear in E, E'.
  destruct (Rltb x x0 || Rltb (table_last ((x0, y0) :: rest)) x)%bool eqn:B; [discriminate|].
  destruct (Rltb x' x0 || Rltb (table_last ((x0, y0) :: rest)) x')%bool eqn:B'; [discriminate|].
  injection E as <-. injection E' as <-.
  apply Bool.orb_false_iff in B as [B _]. apply Bool.orb_false_iff in B' as [B' _].
  apply Rltb_false in B, B'.
  assert (G : gentle L x0 y0 rest) by (apply gentle_table; [exact Hi|intros j H; apply Hs; cbn; lia]).
  destruct (Rle_dec x x') as [A|A].
  - rewrite (Rabs_right (x' - x)) by lra. apply seg_lipschitz; [exact HL|exact G|lra].
  - rewrite Rabs_minus_sym, (Rabs_minus_sym x'), (Rabs_right (x - x')) by lra. apply seg_lipschitz; [exact HL|exact G|lra].
Qed.

(** ** calc_diam_list with equal spacing *)
Lemma linspace_scale s a b n : linspace (s * a) (s * b) n = map (fun x => s * x) (linspace a b n).
Proof. unfold linspace. rewrite map_map. apply map_ext. intros i. unfold Rdiv. ring. Qed.
Lemma insert_scale s x l : 0 < s -> insert (s * x) (map (fun y => s * y) l) = map (fun y => s * y) (insert x l).
Proof.
  intros Hs. induction l as [|y l IH]; [reflexivity|]. cbn [insert map].
  destruct (Rle_dec x y) as [A|A].
  - rewrite (proj2 (Rleb_true x y)), (proj2 (Rleb_true (s * x) (s * y))) by nra. reflexivity.
  - rewrite (proj2 (Rleb_false x y)), (proj2 (Rleb_false (s * x) (s * y))) by nra. cbn [map]. now rewrite IH.
Qed.
Lemma sort_scale s l : 0 < s -> sort (map (fun y => s * y) l) = map (fun y => s * y) (sort l).
Proof.
  intros Hs. unfold sort. induction l as [|y l IH]; [reflexivity|]. cbn [map fold_right]. rewrite IH. now apply insert_scale.
Qed.
Lemma dedup_scale s l : 0 < s -> dedup (map (fun y => s * y) l) = map (fun y => s * y) (dedup l).
Proof.
  intros Hs. induction l as [|x [|y l] IH]; [reflexivity|reflexivity|].
  change (map (fun y => s * y) (x :: y :: l)) with (s * x :: s * y :: map (fun y => s * y) l).
  change (dedup (s * x :: s * y :: map (fun y => s * y) l))
    with (if Reqb (s * x) (s * y) then dedup (map (fun y => s * y) (y :: l)) else s * x :: dedup (map (fun y => s * y) (y :: l))).
  change (dedup (x :: y :: l)) with (if Reqb x y then dedup (y :: l) else x :: dedup (y :: l)).
  rewrite IH. destruct (Req_dec x y) as [E|E].
  - rewrite (proj2 (Reqb_true x y) E), (proj2 (Reqb_true (s * x) (s * y))) by (now rewrite E). reflexivity.
  - rewrite (proj2 (Reqb_false x y) E), (proj2 (Reqb_false (s * x) (s * y))); [reflexivity|].
    intros H. apply Rmult_eq_reg_l in H; [contradiction|lra].
Qed.

(** ** the sphere's goniometer *)
Lemma Rsum_div l n : Rsum (map (fun x => x / n) l) = Rsum l / n.
Proof. unfold Rsum. induction l as [|x l IH]; cbn; [unfold Rdiv; ring|]. rewrite IH. unfold Rdiv. ring. Qed.
