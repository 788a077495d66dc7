(** The Bruggeman equation: every solution with positive real part is real and
    lies between the constituents; exactly one exists. *)
From Coq Require Import Lra Lia Psatz Ranalysis.
From Verif Require Import L_num M_refractive_index Spec_optics L_effindex.
Open Scope R_scope.

(** One term of the sum for a real constituent. *)
Definition bg_term (f n : R) (z : C) : C :=
  Cdiv (Cmult (RtoC f) (Cminus (Csq (RtoC n)) (Csq z)))
       (Cplus (Csq (RtoC n)) (Cmult (RtoC 2) (Csq z))).

Lemma sum_bg_cons : forall f vf n ns z,
  sum_bg (f :: vf) (map RtoC (n :: ns)) z
  = Cplus (bg_term f n z) (sum_bg vf (map RtoC ns) z).
Proof. reflexivity. Qed.

Lemma sum_bg_nil_l : forall ns z, sum_bg [] ns z = RtoC 0.
Proof. reflexivity. Qed.

(** [|n^2 + 2 z^2|^2]; zero only at poles. *)
Definition bg_den (n : R) (z : C) : R :=
  (n * n + 2 * fst (Csq z)) ^ 2 + (2 * snd (Csq z)) ^ 2.

Lemma bg_term_im : forall f n z, bg_den n z <> 0 ->
  snd (bg_term f n z) = - (3 * f * (n * n) * snd (Csq z)) / bg_den n z.
Proof.
  intros f n z H. unfold bg_term, bg_den in *. rewrite Csq_R.
  set (E := Csq z) in *. destruct E as [x y].
  unfold Cdiv, Cinv, Cmult, Cminus, Cplus, Copp, RtoC; cbn [fst snd] in *.
  field. intro K. apply H. rewrite <- K. ring.
Qed.

Lemma bg_term_re_real : forall f n t, 0 < n * n + 2 * t ->
  forall z, Csq z = RtoC t ->
  bg_term f n z = RtoC (f * (n * n - t) / (n * n + 2 * t)).
Proof.
  intros f n t H z Hz. unfold bg_term. rewrite Csq_R, Hz.
  rewrite <- RtoC_minus, <- !RtoC_mult, <- RtoC_plus, <- RtoC_div by lra.
  reflexivity.
Qed.

Lemma bg_den_pos : forall n z, 0 < n -> 0 < fst z -> 0 < bg_den n z.
Proof.
  intros n [a b] Hn Ha. unfold bg_den, Csq, Cmult; cbn [fst snd] in *.
  destruct (Req_dec b 0) as [->|Hb].
  - assert (0 < n * n + 2 * (a * a - 0 * 0)) by nra.
    assert (0 < (n * n + 2 * (a * a - 0 * 0)) ^ 2) by (apply pow_lt; assumption).
    pose proof (pow2_ge_0 (2 * (a * 0 + 0 * a))). lra.
  - assert (0 < (2 * (a * b + b * a)) ^ 2).
    { replace ((2 * (a * b + b * a)) ^ 2) with (Rsqr (4 * a * b)) by (unfold Rsqr; ring).
      apply Rsqr_pos_lt. intro K. apply Hb.
      apply Rmult_integral in K. destruct K; [lra|assumption]. }
    pose proof (pow2_ge_0 (n * n + 2 * (a * a - b * b))). lra.
Qed.

(** Sum of the weights [f n^2 / |n^2 + 2 z^2|^2]. *)
Fixpoint bg_weight (vf ns : list R) (z : C) : R :=
  match vf, ns with
  | f :: vf', n :: ns' => f * (n * n) / bg_den n z + bg_weight vf' ns' z
  | _, _ => 0 end.

Lemma sum_bg_im : forall vf ns z,
  0 < fst z -> Forall (fun n => 0 < n) ns ->
  snd (sum_bg vf (map RtoC ns) z) = - 3 * snd (Csq z) * bg_weight vf ns z.
Proof.
  induction vf as [|f vf IH]; intros ns z Hz Hn.
  - cbn. lra.
  - destruct ns as [|n ns]; [cbn; lra|].
    inversion Hn as [|? ? Hn1 Hn2]; subst.
    rewrite sum_bg_cons. cbn [bg_weight].
    unfold Cplus at 1; cbn [snd]. rewrite IH by assumption.
    pose proof (bg_den_pos n z Hn1 Hz).
    rewrite bg_term_im by lra. field. lra.
Qed.

Lemma bg_weight_nonneg : forall vf ns z,
  0 < fst z -> Forall (fun n => 0 < n) ns -> Forall (fun f => 0 <= f) vf ->
  0 <= bg_weight vf ns z.
Proof.
  induction vf as [|f vf IH]; intros ns z Hz Hn Hf; [cbn; lra|].
  destruct ns as [|n ns]; [cbn; lra|].
  inversion Hn; inversion Hf; subst. cbn [bg_weight].
  pose proof (bg_den_pos n z H1 Hz).
  apply Rplus_le_le_0_compat; [|apply IH; assumption].
  apply Rmult_le_pos; [nra | left; apply Rinv_0_lt_compat; assumption].
Qed.

Lemma bg_weight_pos : forall vf ns z,
  0 < fst z -> Forall (fun n => 0 < n) ns -> Forall (fun f => 0 <= f) vf ->
  length vf = length ns -> 0 < total vf ->
  0 < bg_weight vf ns z.
Proof.
  induction vf as [|f vf IH]; intros ns z Hz Hn Hf Hl Ht; [cbn in Ht; lra|].
  destruct ns as [|n ns]; [discriminate|].
  inversion Hn; inversion Hf; subst. cbn [bg_weight total] in *.
  pose proof (bg_den_pos n z H1 Hz).
  destruct (Rle_lt_or_eq_dec 0 f H5) as [L|E].
  - pose proof (bg_weight_nonneg vf ns z Hz H2 H6).
    assert (0 < f * (n * n) / bg_den n z)
      by (apply Rdiv_lt_0_compat; [apply Rmult_lt_0_compat; nra | assumption]).
    lra.
  - subst f. unfold Rdiv. rewrite !Rmult_0_l, Rplus_0_l.
    apply IH; try assumption; [cbn in Hl; congruence | lra].
Qed.

(** The real equation in [t = z^2]. *)
Fixpoint bg_real (vf ns : list R) (t : R) : R :=
  match vf, ns with
  | f :: vf', n :: ns' => f * (n * n - t) / (n * n + 2 * t) + bg_real vf' ns' t
  | _, _ => 0 end.

Lemma sum_bg_real : forall vf ns z t,
  0 <= t -> Csq z = RtoC t -> Forall (fun n => 0 < n) ns ->
  sum_bg vf (map RtoC ns) z = RtoC (bg_real vf ns t).
Proof.
  induction vf as [|f vf IH]; intros ns z t Ht Hz Hn; [reflexivity|].
  destruct ns as [|n ns]; [reflexivity|].
  inversion Hn; subst. rewrite sum_bg_cons. cbn [bg_real].
  rewrite (bg_term_re_real f n t ltac:(nra) z Hz), (IH ns z t) by assumption.
  rewrite <- RtoC_plus. reflexivity.
Qed.

Lemma bg_real_below : forall vf ns t,
  0 <= t -> Forall (fun n => 0 < n) ns -> Forall (fun f => 0 <= f) vf ->
  (forall i, (i < length ns)%nat -> 0 < nth i vf 0 -> t < nth i ns 0 * nth i ns 0) ->
  length vf = length ns ->
  0 <= bg_real vf ns t /\ (0 < total vf -> 0 < bg_real vf ns t).
Proof.
  induction vf as [|f vf IH]; intros ns t Ht Hn Hf Hb Hl; [cbn; lra|].
  destruct ns as [|n ns]; [discriminate|].
  inversion Hn; inversion Hf; subst. cbn [bg_real total].
  destruct (IH ns t Ht H2 H6) as [I1 I2].
  { intros i Hi Hp. apply (Hb (S i)); [cbn; lia | exact Hp]. }
  { cbn in Hl; congruence. }
  assert (HD : 0 < n * n + 2 * t) by nra.
  destruct (Rle_lt_or_eq_dec 0 f H5) as [L|E].
  - pose proof (Hb 0%nat ltac:(cbn; lia) L) as B. cbn [nth] in B.
    assert (0 < f * (n * n - t) / (n * n + 2 * t))
      by (apply Rdiv_lt_0_compat; [apply Rmult_lt_0_compat; lra | assumption]).
    split; [lra | intros; lra].
  - subst f. unfold Rdiv. rewrite !Rmult_0_l, !Rplus_0_l. split; assumption.
Qed.

Lemma bg_real_above : forall vf ns t,
  0 <= t -> Forall (fun n => 0 < n) ns -> Forall (fun f => 0 <= f) vf ->
  (forall i, (i < length ns)%nat -> 0 < nth i vf 0 -> nth i ns 0 * nth i ns 0 < t) ->
  length vf = length ns ->
  bg_real vf ns t <= 0 /\ (0 < total vf -> bg_real vf ns t < 0).
Proof.
  induction vf as [|f vf IH]; intros ns t Ht Hn Hf Hb Hl; [cbn; lra|].
  destruct ns as [|n ns]; [discriminate|].
  inversion Hn; inversion Hf; subst. cbn [bg_real total].
  destruct (IH ns t Ht H2 H6) as [I1 I2].
  { intros i Hi Hp. apply (Hb (S i)); [cbn; lia | exact Hp]. }
  { cbn in Hl; congruence. }
  assert (HD : 0 < n * n + 2 * t) by nra.
  destruct (Rle_lt_or_eq_dec 0 f H5) as [L|E].
  - pose proof (Hb 0%nat ltac:(cbn; lia) L) as B. cbn [nth] in B.
    assert (K : 0 < f * (t - n * n) / (n * n + 2 * t))
      by (apply Rdiv_lt_0_compat; [apply Rmult_lt_0_compat; lra | assumption]).
    replace (f * (n * n - t) / (n * n + 2 * t))
      with (- (f * (t - n * n) / (n * n + 2 * t))) by (field; lra).
    split; [lra | intros; lra].
  - subst f. unfold Rdiv. rewrite !Rmult_0_l, !Rplus_0_l. split; assumption.
Qed.

(** Strictly decreasing. *)
Lemma bg_real_decr : forall vf ns s t,
  0 <= s -> s < t -> Forall (fun n => 0 < n) ns -> Forall (fun f => 0 <= f) vf ->
  length vf = length ns ->
  bg_real vf ns t <= bg_real vf ns s /\
  (0 < total vf -> bg_real vf ns t < bg_real vf ns s).
Proof.
  induction vf as [|f vf IH]; intros ns s t Hs Hst Hn Hf Hl; [cbn; lra|].
  destruct ns as [|n ns]; [discriminate|].
  inversion Hn; inversion Hf; subst. cbn [bg_real total].
  destruct (IH ns s t Hs Hst H2 H6) as [I1 I2]; [cbn in Hl; congruence|].
  assert (HD : 0 < n * n + 2 * t) by nra.
  assert (HE : 0 < n * n + 2 * s) by nra.
  assert (E : f * (n * n - s) / (n * n + 2 * s) - f * (n * n - t) / (n * n + 2 * t)
          = f * (3 * (n * n) * (t - s) / ((n * n + 2 * s) * (n * n + 2 * t)))).
  { field. lra. }
  assert (P : 0 < 3 * (n * n) * (t - s) / ((n * n + 2 * s) * (n * n + 2 * t))).
  { apply Rdiv_lt_0_compat; [|apply Rmult_lt_0_compat; assumption].
    apply Rmult_lt_0_compat; nra. }
  destruct (Rle_lt_or_eq_dec 0 f H5) as [L|E0].
  - split; [nra | intros; nra].
  - subst f. unfold Rdiv in *. rewrite !Rmult_0_l, !Rplus_0_l. split; assumption.
Qed.

Lemma bg_real_continuous : forall vf ns t,
  0 <= t -> Forall (fun n => 0 < n) ns ->
  continuity_pt (bg_real vf ns) t.
Proof.
  induction vf as [|f vf IH]; intros ns t Ht Hn.
  - apply continuity_pt_const. intros a b. reflexivity.
  - destruct ns as [|n ns].
    + apply continuity_pt_const. intros a b. reflexivity.
    + inversion Hn; subst. cbn [bg_real].
      assert (HD : 0 < n * n + 2 * t) by nra.
      apply (continuity_pt_plus (fun t => f * (n * n - t) / (n * n + 2 * t)) (bg_real vf ns));
        [|apply IH; assumption].
      apply derivable_continuous_pt. reg. lra.
Qed.

(** The code's fraction vector. *)
Lemma bg_fractions_total : forall vf, total (bg_fractions vf) = 1.
Proof.
  intros vf. unfold bg_fractions. rewrite total_app.
  pose proof (Rsum_total vf). cbn [total]. lra.
Qed.

Lemma bg_fractions_nonneg : forall vf,
  Forall (fun f => 0 <= f) vf -> total vf <= 1 ->
  Forall (fun f => 0 <= f) (bg_fractions vf).
Proof.
  intros vf H1 H2. unfold bg_fractions. apply Forall_app. split; [assumption|].
  constructor; [pose proof (Rsum_total vf); lra | constructor].
Qed.

Lemma bg_indices_real : forall np nm,
  bg_indices (map RtoC np) (RtoC nm) = map RtoC (np ++ [nm]).
Proof. intros. unfold bg_indices. rewrite map_app. reflexivity. Qed.

Section Root.
Variables (vf np : list R) (nm : R).
Hypothesis (Hvf : Forall (fun f => 0 <= f) vf) (Htot : total vf <= 1)
           (Hnp : Forall (fun n => 0 < n) np) (Hnm : 0 < nm)
           (Hlen : length np = length vf).

Let F := bg_fractions vf.
Let N := np ++ [nm].

Lemma root_F_nonneg : Forall (fun f => 0 <= f) F.
Proof. apply bg_fractions_nonneg; assumption. Qed.
Lemma root_N_pos : Forall (fun n => 0 < n) N.
Proof. apply Forall_app; split; [assumption | constructor; [assumption | constructor]]. Qed.
Lemma root_len : length F = length N.
Proof. unfold F, N, bg_fractions. rewrite !app_length. cbn. lia. Qed.
Lemma root_total : 0 < total F.
Proof. unfold F. rewrite bg_fractions_total. lra. Qed.

Lemma bg_root_real : forall z, 0 < fst z ->
  sum_bg F (map RtoC N) z = RtoC 0 -> snd z = 0.
Proof.
  intros z Hz H.
  pose proof (sum_bg_im F N z Hz root_N_pos) as E. rewrite H in E. cbn [RtoC snd] in E.
  pose proof (bg_weight_pos F N z Hz root_N_pos root_F_nonneg root_len root_total).
  assert (K : snd (Csq z) = 0) by nra.
  destruct z as [a b]. unfold Csq, Cmult in K; cbn [fst snd] in *. nra.
Qed.

Lemma bg_root_sq : forall z, 0 < fst z ->
  sum_bg F (map RtoC N) z = RtoC 0 -> bg_real F N (fst z * fst z) = 0.
Proof.
  intros z Hz H. pose proof (bg_root_real z Hz H) as E.
  rewrite (sum_bg_real F N z (fst z * fst z)) in H.
  - injection H. auto.
  - nra.
  - destruct z as [a b]; cbn [fst snd] in *; subst b. apply (Csq_R a).
  - apply root_N_pos.
Qed.

Lemma bg_root_between : forall z lo hi, 0 < fst z ->
  sum_bg F (map RtoC N) z = RtoC 0 ->
  (forall i, (i < length N)%nat -> 0 < nth i F 0 -> lo <= nth i N 0 <= hi) ->
  lo <= fst z <= hi.
Proof.
  intros z lo hi Hz H HB. pose proof (bg_root_sq z Hz H) as E.
  assert (NP : forall i, (i < length N)%nat -> 0 < nth i N 0).
  { intros i Hi. apply (proj1 (Forall_forall _ _) root_N_pos). apply nth_In; assumption. }
  split.
  - destruct (Rle_lt_dec lo (fst z)) as [G|L]; [assumption|exfalso].
    destruct (bg_real_below F N (fst z * fst z)) as [_ K]; auto using root_N_pos, root_F_nonneg, root_len.
    + nra.
    + intros i Hi Hp. destruct (HB i Hi Hp) as [B _]. nra.
    + specialize (K root_total). lra.
  - destruct (Rle_lt_dec (fst z) hi) as [G|L]; [assumption|exfalso].
    destruct (bg_real_above F N (fst z * fst z)) as [_ K]; auto using root_N_pos, root_F_nonneg, root_len.
    + nra.
    + intros i Hi Hp. destruct (HB i Hi Hp) as [_ B]. specialize (NP i Hi). nra.
    + specialize (K root_total). lra.
Qed.

Lemma bg_root_unique : forall z w, 0 < fst z -> 0 < fst w ->
  sum_bg F (map RtoC N) z = RtoC 0 -> sum_bg F (map RtoC N) w = RtoC 0 -> z = w.
Proof.
  intros z w Hz Hw H1 H2.
  pose proof (bg_root_sq z Hz H1) as E1. pose proof (bg_root_sq w Hw H2) as E2.
  apply C_eq; [|rewrite (bg_root_real z), (bg_root_real w) by assumption; reflexivity].
  destruct (Rtotal_order (fst z) (fst w)) as [L|[E|G]]; [exfalso|assumption|exfalso].
  - destruct (bg_real_decr F N (fst z * fst z) (fst w * fst w)) as [_ K];
      auto using root_N_pos, root_F_nonneg, root_len; try nra.
    specialize (K root_total). lra.
  - destruct (bg_real_decr F N (fst w * fst w) (fst z * fst z)) as [_ K];
      auto using root_N_pos, root_F_nonneg, root_len; try nra.
    specialize (K root_total). lra.
Qed.

(** Bounds for a list of positive numbers. *)
Lemma list_bounds : forall l : list R, Forall (fun n => 0 < n) l ->
  exists lo hi, 0 < lo < hi /\ forall i, (i < length l)%nat -> lo < nth i l 0 < hi.
Proof.
  induction l as [|a l IH]; intros H.
  - exists 1, 2. split; [lra|]. cbn. lia.
  - inversion H; subst. destruct (IH H3) as (lo & hi & Hb & B).
    exists (Rmin lo (a / 2)), (Rmax hi (2 * a)).
    assert (0 < Rmin lo (a / 2)) by (apply Rmin_glb_lt; lra).
    pose proof (Rmin_l lo (a / 2)). pose proof (Rmin_r lo (a / 2)).
    pose proof (Rmax_l hi (2 * a)). pose proof (Rmax_r hi (2 * a)).
    split; [lra|]. intros [|i] Hi; cbn [nth]; [lra|].
    cbn in Hi. specialize (B i ltac:(lia)). lra.
Qed.

Lemma bg_root_exists : exists x, 0 < x /\ sum_bg F (map RtoC N) (RtoC x) = RtoC 0.
Proof.
  destruct (list_bounds N root_N_pos) as (lo & hi & Hb & B).
  assert (C1 : 0 < bg_real F N (lo * lo)).
  { destruct (bg_real_below F N (lo * lo)) as [_ K];
      auto using root_N_pos, root_F_nonneg, root_len, root_total; [nra|].
    intros i Hi _. specialize (B i Hi). nra. }
  assert (C2 : bg_real F N (hi * hi) < 0).
  { destruct (bg_real_above F N (hi * hi)) as [_ K];
      auto using root_N_pos, root_F_nonneg, root_len, root_total; [nra|].
    intros i Hi _. specialize (B i Hi). nra. }
  destruct (Ranalysis5.IVT_interv (fun t => - bg_real F N t) (lo * lo) (hi * hi))
    as (t & Ht & E).
  - intros a Ha. apply continuity_pt_opp. apply bg_real_continuous; [nra|apply root_N_pos].
  - nra.
  - lra.
  - lra.
  - assert (T : 0 < t) by nra. exists (sqrt t). split; [apply sqrt_lt_R0; assumption|].
    rewrite (sum_bg_real F N (RtoC (sqrt t)) t).
    + f_equal. lra.
    + lra.
    + rewrite Csq_R, sqrt_sqrt by lra. reflexivity.
    + apply root_N_pos.
Qed.
End Root.

(** ** Absorbing constituents: the solution's loss tangent lies between theirs. *)

(** [Im (e * conj E)]: positive when [e] has the larger phase. *)
Definition im_conj (e E : C) : R := snd e * fst E - fst e * snd E.

Definition abs_den (e E : C) : R :=
  (fst e + 2 * fst E) ^ 2 + (snd e + 2 * snd E) ^ 2.

Lemma bg_term_im_gen : forall f n z, abs_den (Csq n) (Csq z) <> 0 ->
  snd (Cdiv (Cmult (RtoC f) (Cminus (Csq n) (Csq z)))
            (Cplus (Csq n) (Cmult (RtoC 2) (Csq z))))
  = f * (3 * im_conj (Csq n) (Csq z) / abs_den (Csq n) (Csq z)).
Proof.
  intros f n z H. unfold abs_den, im_conj in *.
  set (E := Csq z) in *. set (e := Csq n) in *. destruct E as [x y], e as [u v].
  unfold Cdiv, Cinv, Cmult, Cminus, Cplus, Copp, RtoC; cbn [fst snd] in *.
  field. intro K. apply H. rewrite <- K. ring.
Qed.

Definition upper (e : C) : Prop := 0 <= snd e /\ (snd e = 0 -> 0 < fst e).

Lemma abs_den_pos : forall e E, upper e -> upper E -> 0 < abs_den e E.
Proof.
  intros e E [A1 A2] [B1 B2].
  pose proof (mg_den_nonzero e E 1 2 A1 A2 B1 B2 ltac:(lra) ltac:(lra) ltac:(lra)) as H.
  unfold abs_den. lra.
Qed.

Lemma sum_bg_phase : forall vf ns z,
  upper (Csq z) -> Forall (fun n => upper (Csq n)) ns ->
  Forall (fun f => 0 <= f) vf -> length vf = length ns -> 0 < total vf ->
  snd (sum_bg vf ns z) = 0 ->
  (exists i, (i < length ns)%nat /\ 0 < nth i vf 0 /\
             0 <= im_conj (Csq (nth i ns (RtoC 0))) (Csq z)) /\
  (exists i, (i < length ns)%nat /\ 0 < nth i vf 0 /\
             im_conj (Csq (nth i ns (RtoC 0))) (Csq z) <= 0).
Proof.
  intros vf ns z Hz Hn Hf Hl Ht Hs.
  assert (G : forall vf ns,
    Forall (fun n => upper (Csq n)) ns -> Forall (fun f => 0 <= f) vf ->
    length vf = length ns -> 0 < total vf ->
    (0 <= snd (sum_bg vf ns z) ->
      exists i, (i < length ns)%nat /\ 0 < nth i vf 0 /\
             0 <= im_conj (Csq (nth i ns (RtoC 0))) (Csq z)) /\
    (snd (sum_bg vf ns z) <= 0 ->
      exists i, (i < length ns)%nat /\ 0 < nth i vf 0 /\
             im_conj (Csq (nth i ns (RtoC 0))) (Csq z) <= 0)).
  2:{ destruct (G vf ns Hn Hf Hl Ht) as [G1 G2]. rewrite Hs in G1, G2.
      split; [apply G1 | apply G2]; lra. }
  clear vf ns Hn Hf Hl Ht Hs.
  induction vf as [|f vf IH]; intros ns Hn Hf Hl Ht; [cbn in Ht; lra|].
  destruct ns as [|n ns]; [discriminate|].
  inversion Hn as [|? ? N1 N2]; inversion Hf as [|? ? F1 F2]; subst.
  cbn [total] in Ht. cbn [length] in Hl.
  assert (D : 0 < abs_den (Csq n) (Csq z)) by (apply abs_den_pos; assumption).
  assert (Es : snd (sum_bg (f :: vf) (n :: ns) z) =
     f * (3 * im_conj (Csq n) (Csq z) / abs_den (Csq n) (Csq z)) + snd (sum_bg vf ns z)).
  { rewrite <- bg_term_im_gen by lra. reflexivity. }
  rewrite Es. clear Es.
  destruct (Rle_lt_or_eq_dec 0 f F1) as [L|E].
  - destruct (Rle_lt_dec 0 (total vf)) as [T0|T0].
    2:{ pose proof (total_nonneg vf F2). lra. }
    destruct (Rle_lt_or_eq_dec _ _ T0) as [Tp|Te].
    + destruct (IH ns N2 F2 ltac:(lia) Tp) as [I1 I2]. split; intros Hs.
      * destruct (Rle_lt_dec 0 (im_conj (Csq n) (Csq z))) as [P|Q].
        -- exists 0%nat. cbn [length nth]. split; [lia|]. split; assumption.
        -- destruct I1 as (i & Hi & Hp & Hv).
           ++ assert (0 < f * (3 * - im_conj (Csq n) (Csq z) / abs_den (Csq n) (Csq z))).
              { apply Rmult_lt_0_compat; [assumption|].
                apply Rdiv_lt_0_compat; lra. }
              replace (f * (3 * im_conj (Csq n) (Csq z) / abs_den (Csq n) (Csq z)))
                with (- (f * (3 * - im_conj (Csq n) (Csq z) / abs_den (Csq n) (Csq z))))
                in Hs by (field; lra).
              lra.
           ++ exists (S i). cbn [length nth]. split; [lia|]. split; assumption.
      * destruct (Rle_lt_dec (im_conj (Csq n) (Csq z)) 0) as [P|Q].
        -- exists 0%nat. cbn [length nth]. split; [lia|]. split; assumption.
        -- destruct I2 as (i & Hi & Hp & Hv).
           ++ assert (0 < f * (3 * im_conj (Csq n) (Csq z) / abs_den (Csq n) (Csq z))).
              { apply Rmult_lt_0_compat; [assumption|].
                apply Rdiv_lt_0_compat; lra. }
              lra.
           ++ exists (S i). cbn [length nth]. split; [lia|]. split; assumption.
    + assert (Z : snd (sum_bg vf ns z) = 0).
      { clear IH. assert (A : Forall (fun g => g = 0) vf).
        { clear -F2 Te. revert Te. induction vf as [|g l IHl]; intros Te; [constructor|].
          inversion F2; subst. cbn [total] in Te. pose proof (total_nonneg l H2).
          constructor; [lra | apply IHl; [assumption | lra]]. }
        clear -A N2 Hl Hz. revert ns N2 Hl. induction vf as [|g l IHl]; intros ns N2 Hl; [reflexivity|].
        destruct ns as [|m ns]; [discriminate|].
        inversion A; inversion N2; subst.
        assert (D : 0 < abs_den (Csq m) (Csq z)) by (apply abs_den_pos; assumption).
        assert (Es : snd (sum_bg (0 :: l) (m :: ns) z) =
           0 * (3 * im_conj (Csq m) (Csq z) / abs_den (Csq m) (Csq z)) + snd (sum_bg l ns z)).
        { rewrite <- bg_term_im_gen by lra. reflexivity. }
        rewrite Es, IHl; [ring | assumption | assumption | cbn in Hl; lia]. }
      rewrite Z. split; intros Hs; exists 0%nat; cbn [length nth].
      * split; [lia|]. split; [assumption|].
        destruct (Rle_lt_dec 0 (im_conj (Csq n) (Csq z))) as [P|Q]; [assumption|exfalso].
        assert (0 < f * (3 * - im_conj (Csq n) (Csq z) / abs_den (Csq n) (Csq z))).
        { apply Rmult_lt_0_compat; [assumption|]. apply Rdiv_lt_0_compat; lra. }
        replace (f * (3 * im_conj (Csq n) (Csq z) / abs_den (Csq n) (Csq z)))
          with (- (f * (3 * - im_conj (Csq n) (Csq z) / abs_den (Csq n) (Csq z))))
          in Hs by (field; lra).
        lra.
      * split; [lia|]. split; [assumption|].
        destruct (Rle_lt_dec (im_conj (Csq n) (Csq z)) 0) as [P|Q]; [assumption|exfalso].
        assert (0 < f * (3 * im_conj (Csq n) (Csq z) / abs_den (Csq n) (Csq z))).
        { apply Rmult_lt_0_compat; [assumption|]. apply Rdiv_lt_0_compat; lra. }
        lra.
  - subst f. rewrite Rmult_0_l, Rplus_0_l.
    destruct (IH ns N2 F2 ltac:(lia) ltac:(lra)) as [I1 I2]. split; intros Hs.
    + destruct (I1 Hs) as (i & Hi & Hp & Hv). exists (S i). cbn [length nth].
      split; [lia|]. split; assumption.
    + destruct (I2 Hs) as (i & Hi & Hp & Hv). exists (S i). cbn [length nth].
      split; [lia|]. split; assumption.
Qed.

(** ** The function [n_eff] itself. *)

Lemma n_eff_bg_real : forall fs np nm vf r,
  n_eff fs false (map RtoC np) [RtoC nm] vf = Ok r ->
  length np = length vf /\
  let z := fs (sum_bg (bg_fractions vf) (map RtoC (np ++ [nm]))) in
  r = z /\ 0 <= snd z.
Proof.
  intros fs np nm vf r. unfold n_eff. rewrite map_length.
  destruct (Nat.eqb (length np) (length vf)) eqn:E; cbn [negb]; [|discriminate].
  apply Nat.eqb_eq in E. rewrite bg_indices_real.
  set (z := fs _). destruct (Reqb (snd z) 0) eqn:E0.
  - apply Reqb_true in E0. intros H; injection H as <-. split; [assumption|].
    cbv zeta. split; [|lra]. apply C_eq; cbn; congruence.
  - destruct (Rltb (snd z) 0) eqn:E1; [discriminate|].
    apply Rltb_false in E1. intros H; injection H as <-. split; [assumption|].
    cbv zeta. split; [reflexivity | lra].
Qed.

(** The model's sum and the specification's. *)
Lemma bruggeman_sum_bg : forall vf ns z,
  bruggeman (combine vf ns) z <-> sum_bg vf ns z = RtoC 0.
Proof.
  intros vf ns z. unfold bruggeman.
  assert (E : forall vf ns, fold_right Cplus (RtoC 0)
    (map (fun p : R * C => let '(f, n) := p in
       Cmult (RtoC f) (Cdiv (Cminus (Cmult n n) (Cmult z z))
          (Cplus (Cmult n n) (Cmult (RtoC 2) (Cmult z z))))) (combine vf ns))
    = sum_bg vf ns z).
  { clear vf ns. induction vf as [|f vf IH]; intros ns; [reflexivity|].
    destruct ns as [|n ns]; [reflexivity|].
    cbn [combine map fold_right]. rewrite IH.
    unfold sum_bg. cbn [map2 fold_right]. unfold Cdiv, Csq.
    f_equal. symmetry. rewrite <- Cmult_assoc. reflexivity. }
  rewrite E. reflexivity.
Qed.

Lemma bg_fractions_eq : forall vf, bg_fractions vf = vf ++ [1 - total vf].
Proof. intros vf. unfold bg_fractions. rewrite (Rsum_total vf). reflexivity. Qed.
