(** Proofs about the helpers of structcol/__init__.py (C09-C11). *)
From Coq Require Import Lra Lia Psatz.
From Verif Require Export M_init L_num.
Open Scope R_scope.

Lemma snell_ratio n1 n2 t t2 : 0 < n2 -> snell n1 t n2 t2 -> n1 / n2 * sin t = sin t2.
Proof.
  unfold snell; intros H2 H. apply Rmult_eq_reg_l with n2; [|lra].
  replace (n2 * (n1 / n2 * sin t)) with (n1 * sin t) by (field; lra). exact H.
Qed.

Lemma refraction_some n1 n2 t t2 :
  0 < n2 -> refraction t n1 n2 = Some t2 ->
  - (PI / 2) <= t2 <= PI / 2 /\ snell n1 t n2 t2.
Proof.
  intros H2. unfold refraction.
  destruct (Rltb 1 (Rabs (n1 / n2 * sin t))) eqn:E; [discriminate|].
  intros H; injection H as <-. apply Rltb_false in E.
  split; [apply asin_bound|].
  unfold snell. rewrite sin_asin.
  - field; lra.
  - unfold Rabs in E; destruct (Rcase_abs (n1 / n2 * sin t)); lra.
Qed.

Lemma refraction_none n1 n2 t :
  0 < n2 -> (refraction t n1 n2 = None <-> ~ exists t2, snell n1 t n2 t2).
Proof.
  intros H2. split.
  - unfold refraction. destruct (Rltb 1 (Rabs (n1 / n2 * sin t))) eqn:E; [|discriminate].
    intros _ [t2 Hs]. apply Rltb_true in E. rewrite (snell_ratio n1 n2 t t2) in E by auto.
    pose proof (SIN_bound t2). unfold Rabs in E; destruct (Rcase_abs (sin t2)); lra.
  - intros H. destruct (refraction t n1 n2) as [t2|] eqn:E; [|reflexivity].
    exfalso; apply H. exists t2. apply refraction_some in E; tauto.
Qed.

Lemma refraction_roundtrip n1 n2 t t2 :
  0 < n1 -> 0 < n2 -> - (PI / 2) <= t <= PI / 2 ->
  refraction t n1 n2 = Some t2 -> refraction t2 n2 n1 = Some t.
Proof.
  intros H1 H2 Ht H. apply refraction_some in H; [|exact H2].
  destruct H as [_ Hs]. unfold refraction.
  rewrite (snell_ratio n2 n1 t2 t) by (auto; unfold snell in *; lra).
  replace (Rltb 1 (Rabs (sin t))) with false.
  - rewrite asin_sin by lra. reflexivity.
  - symmetry; apply Rltb_false. pose proof (SIN_bound t).
    unfold Rabs; destruct (Rcase_abs (sin t)); lra.
Qed.

(** Refraction without contrast is the identity. *)
Lemma refraction_same n t :
  0 < n -> - (PI / 2) <= t <= PI / 2 -> refraction t n n = Some t.
Proof.
  intros Hn Ht. unfold refraction. replace (n / n) with 1 by (field; lra).
  rewrite Rmult_1_l. replace (Rltb 1 (Rabs (sin t))) with false.
  - rewrite asin_sin by lra. reflexivity.
  - symmetry; apply Rltb_false. pose proof (SIN_bound t).
    unfold Rabs; destruct (Rcase_abs (sin t)); lra.
Qed.

Lemma magnitude_vlen v : magnitude v = vlen v.
Proof.
  unfold magnitude, vlen, dot. f_equal. rewrite <- !Rsqr_pow2, <- !Rsqr_abs. unfold Rsqr. reflexivity.
Qed.

Lemma dot_self_zero v : dot v v = 0 -> v = vzero.
Proof.
  destruct v as [[x y] z]; unfold dot, vzero; cbn; intros H.
  assert (x = 0) by nra. assert (y = 0) by nra. assert (z = 0) by nra. subst; reflexivity.
Qed.
Lemma dot_self_nonneg v : 0 <= dot v v.
Proof. destruct v as [[x y] z]; unfold dot; cbn; nra. Qed.

Lemma vlen_zero v : vlen v = 0 <-> v = vzero.
Proof.
  unfold vlen; split.
  - intros H. apply dot_self_zero. apply sqrt_eq_0; auto. apply dot_self_nonneg.
  - intros ->. unfold dot, vzero; cbn. replace (0 * 0 + 0 * 0 + 0 * 0) with 0 by ring. apply sqrt_0.
Qed.

Lemma div_vec_unit v : v <> vzero ->
  exists u, div_vec v (magnitude v) = Some u /\ unit u /\ v = vscale (vlen v) u.
Proof.
  intros Hv. rewrite magnitude_vlen.
  assert (Hm : vlen v <> 0) by (intros E; apply Hv, vlen_zero, E).
  unfold div_vec. replace (Reqb (vlen v) 0) with false by (symmetry; apply Reqb_false; exact Hm).
  eexists; split; [reflexivity|].
  assert (E : vlen v * vlen v = dot v v).
  { unfold vlen. apply sqrt_sqrt, dot_self_nonneg. }
  split.
  - unfold unit. destruct v as [[x y] z]. unfold dot in *; cbn in *.
    replace (x / vlen (x, y, z) * (x / vlen (x, y, z)) + y / vlen (x, y, z) * (y / vlen (x, y, z)) +
             z / vlen (x, y, z) * (z / vlen (x, y, z)))
      with ((x * x + y * y + z * z) / (vlen (x, y, z) * vlen (x, y, z))) by (field; exact Hm).
    rewrite E. field. rewrite <- E. apply Rmult_integral_contrapositive; auto.
  - destruct v as [[x y] z]. unfold vscale; cbn. f_equal; [f_equal|]; field; exact Hm.
Qed.


Lemma map2_Forall2 {A B C} (P : A -> C -> Prop) (f : A -> B -> C) (g : A -> B) l :
  (forall a, In a l -> P a (f a (g a))) -> Forall2 P l (map2 f l (map g l)).
Proof. induction l as [|a l IH]; cbn; intros H; constructor; auto. Qed.

Lemma normalize_correct return_nan vs :
  Forall2 (normalize_spec return_nan) vs (normalize return_nan vs).
Proof.
  unfold normalize. cbv zeta.
  destruct (negb return_nan && negb (forallb (fun m => negb (Reqb m 0)) (map magnitude vs))) eqn:E.
  - apply andb_true_iff in E. destruct E as [Ern Hall].
    apply negb_true_iff in Ern; subst return_nan.
    rewrite map_map. apply map2_Forall2. intros v _. split.
    + intros Hv. destruct (Reqb (magnitude v) 0) eqn:Em.
      * apply Reqb_true in Em. rewrite magnitude_vlen in Em. apply vlen_zero in Em; contradiction.
      * apply div_vec_unit; exact Hv.
    + intros ->. replace (Reqb (magnitude vzero) 0) with true
        by (symmetry; apply Reqb_true; rewrite magnitude_vlen; apply vlen_zero; reflexivity).
      unfold div_vec. replace (Reqb 1 0) with false by (symmetry; apply Reqb_false; lra).
      unfold vzero; cbn. do 3 f_equal; field.
  - apply map2_Forall2. intros v Hin. split.
    + apply div_vec_unit.
    + intros ->. destruct return_nan.
      * unfold div_vec. replace (Reqb (magnitude vzero) 0) with true; [reflexivity|].
        symmetry; apply Reqb_true; rewrite magnitude_vlen; apply vlen_zero; reflexivity.
      * exfalso. cbn in E. apply negb_false_iff in E. rewrite forallb_forall in E.
        specialize (E (magnitude vzero) (in_map magnitude vs vzero Hin)).
        apply negb_true_iff, Reqb_false in E. apply E.
        rewrite magnitude_vlen; apply vlen_zero; reflexivity.
Qed.

(** select_events *)
Lemma select_from_spec rows n :
  Forall (fun r => length r = n) rows ->
  forall events t, (t + length events <= n)%nat ->
  Forall (fun e => (e <= Z.of_nat (length rows))%Z) events ->
  exists out, select_events_from rows t events = Ok out
    /\ length out = length events
    /\ forall i, (i < length events)%nat ->
         nth i out 0 = if (nth i events 0 <=? 0)%Z then 0
                       else nth (t + i) (nth (Z.to_nat (nth i events 0%Z - 1)) rows []) 0.
Proof.
  intros Hrows. induction events as [|ev evs IH]; intros t Hlen Hev.
  - exists []. cbn. repeat split; auto. intros i Hi; lia.
  - cbn in Hlen. inversion Hev as [|e es He Hes]; subst.
    destruct (IH (S t)) as [out [Eout [Hlo Hnth]]]; [lia|exact Hes|].
    cbn. unfold select_one. destruct (ev <=? 0)%Z eqn:Eev.
    + cbn. rewrite Eout. cbn. eexists; split; [reflexivity|]. split; [cbn; lia|].
      intros [|i] Hi; [cbn; rewrite Eev; reflexivity|]. cbn [nth].
      rewrite Hnth by (cbn in Hi; lia). replace (S t + i)%nat with (t + S i)%nat by lia. reflexivity.
    + apply Z.leb_gt in Eev.
      assert (Hi : (Z.to_nat (ev - 1) < length rows)%nat) by lia.
      destruct (nth_error rows (Z.to_nat (ev - 1))) as [row|] eqn:Er;
        [|apply nth_error_None in Er; lia].
      assert (Hr : length row = n).
      { rewrite Forall_forall in Hrows. apply Hrows. eapply nth_error_In; exact Er. }
      destruct (nth_error row t) as [v|] eqn:Ev; [|apply nth_error_None in Ev; lia].
      cbn. rewrite Eout. cbn. eexists; split; [reflexivity|]. split; [cbn; lia|].
      intros [|i] Hi'.
      * cbn [nth]. replace (ev <=? 0)%Z with false by (symmetry; apply Z.leb_gt; lia).
        rewrite Nat.add_0_r. erewrite (nth_error_nth rows _ [] Er). erewrite nth_error_nth by exact Ev. reflexivity.
      * cbn [nth]. rewrite Hnth by (cbn in Hi'; lia). replace (S t + i)%nat with (t + S i)%nat by lia. reflexivity.
Qed.

Lemma select_events_spec rows events :
  Forall (fun r => length r = length events) rows ->
  Forall (fun e => (e <= Z.of_nat (length rows))%Z) events ->
  exists out, select_events rows events = Ok out
    /\ length out = length events
    /\ forall t, (t < length events)%nat ->
         nth t out 0 = if (nth t events 0 <=? 0)%Z then 0
                       else nth t (nth (Z.to_nat (nth t events 0%Z - 1)) rows []) 0.
Proof.
  intros Hr He. destruct (select_from_spec rows (length events) Hr events 0) as [out H]; auto.
  exists out. exact H.
Qed.

Lemma select_from_rejects rows :
  forall events t i, (i < length events)%nat ->
  (nth i events 0 > Z.of_nat (length rows))%Z ->
  select_events_from rows t events = Err IndexError.
Proof.
  assert (Hone : forall t e, exists v, select_one rows t e = v /\ (v = Err IndexError \/ exists r, v = Ok r)).
  { intros t e. unfold select_one. destruct (e <=? 0)%Z; [eauto|].
    destruct (nth_error rows _) as [row|]; [|eauto]. destruct (nth_error row t); eauto. }
  induction events as [|ev evs IH]; intros t i Hi Hgt; cbn in Hi; [lia|].
  cbn. destruct i as [|i].
  - cbn in Hgt. unfold select_one. replace (ev <=? 0)%Z with false by (symmetry; apply Z.leb_gt; lia).
    replace (nth_error rows (Z.to_nat (ev - 1))) with (@None (list R)); [reflexivity|].
    symmetry; apply nth_error_None. lia.
  - destruct (Hone t ev) as [v [-> [->|[r ->]]]]; cbn; [reflexivity|].
    rewrite (IH (S t) i); [reflexivity|lia|exact Hgt].
Qed.

(** The per-trajectory reading used by the detector model. *)
Lemma select_col_agrees rows events t :
  Forall (fun r => length r = length events) rows ->
  Forall (fun e => (0 <= e <= Z.of_nat (length rows))%Z) events ->
  (t < length events)%nat ->
  exists out, select_events rows events = Ok out /\
  nth t out 0 = select_col (map (fun r => nth t r 0) rows) (Z.to_nat (nth t events 0%Z)).
Proof.
  intros Hr He Ht. destruct (select_events_spec rows events Hr) as [out [Eo [Hl Hn]]].
  { eapply Forall_impl; [|exact He]; cbn; intros; lia. }
  exists out; split; [exact Eo|]. rewrite Hn by exact Ht.
  rewrite Forall_forall in He. specialize (He (nth t events 0%Z) (nth_In events 0%Z Ht)).
  destruct (Z.leb_spec (nth t events 0%Z) 0) as [H|H].
  - replace (Z.to_nat (nth t events 0%Z)) with 0%nat by lia. reflexivity.
  - replace (Z.to_nat (nth t events 0%Z)) with (S (Z.to_nat (nth t events 0%Z - 1))) by lia.
    cbn [select_col].
    symmetry. apply (nth_map_in (fun r => nth t r 0)). lia.
Qed.
