(** Lemmas on event distributions. *)
From Coq Require Import Lra Lia Psatz.
From Coquelicot Require Import Rcomplements.
From Verif Require Import Spec Spec_events L_num M_event_distribution L_material.
Open Scope R_scope.

Lemma filter_map_S : forall (f : nat -> bool) l,
  filter f (map S l) = map S (filter (fun k => f (S k)) l).
Proof.
  induction l as [|a l IH]; [reflexivity|]. cbn [map filter].
  destruct (f (S a)); cbn [map]; rewrite IH; reflexivity.
Qed.

Lemma where_eq_cons : forall i idx ev,
  where_eq (i :: idx) ev = (if Nat.eqb i ev then [0%nat] else []) ++ map S (where_eq idx ev).
Proof.
  intros i idx ev. unfold where_eq. cbn [length seq filter nth].
  rewrite <- seq_shift, filter_map_S. cbn [nth]. destruct (Nat.eqb i ev); reflexivity.
Qed.

Lemma take_at_S : forall x a l, take_at (x :: a) (map S l) = take_at a l.
Proof. intros. unfold take_at. rewrite map_map. reflexivity. Qed.

Lemma sum_at_cons : forall x a i idx ev,
  sum_at (x :: a) (i :: idx) ev = (if Nat.eqb i ev then x else 0) + sum_at a idx ev.
Proof.
  intros. unfold sum_at. rewrite where_eq_cons. unfold take_at at 1. rewrite map_app.
  fold (take_at (x :: a) (map S (where_eq idx ev))). rewrite take_at_S.
  destruct (Nat.eqb i ev); cbn [map app Rsum fold_right nth].
  - reflexivity.
  - unfold Rsum. lra.
Qed.

Lemma sum_at_where : forall idx a ev, length idx = length a ->
  sum_at a idx ev = weight_where (Nat.eqb ev) idx a.
Proof.
  induction idx as [|i idx IH]; intros [|x a] ev H; try discriminate.
  - reflexivity.
  - rewrite sum_at_cons. unfold weight_where. cbn [combine filter fst].
    rewrite (Nat.eqb_sym ev i). injection H as H. rewrite (IH a ev H). unfold weight_where.
    destruct (Nat.eqb i ev); cbn [map snd total]; [reflexivity|lra].
Qed.

Lemma weight_where_cons : forall P i idx x a,
  weight_where P (i :: idx) (x :: a) = (if P i then x else 0) + weight_where P idx a.
Proof.
  intros. unfold weight_where. cbn [combine filter fst].
  destruct (P i); cbn [map snd total]; lra.
Qed.

Lemma weight_where_nil : forall P a, weight_where P [] a = 0.
Proof. reflexivity. Qed.

Lemma weight_where_ext : forall P Q idx a, (forall i, In i idx -> P i = Q i) ->
  weight_where P idx a = weight_where Q idx a.
Proof.
  induction idx as [|i idx IH]; intros [|x a] H; try reflexivity.
  rewrite !weight_where_cons, (H i (or_introl eq_refl)).
  rewrite (IH a) by (intros; apply H; right; assumption). reflexivity.
Qed.

Lemma weight_where_nonneg : forall P idx a, Forall (fun x => 0 <= x) a ->
  0 <= weight_where P idx a.
Proof.
  induction idx as [|i idx IH]; intros [|x a] H; try (unfold weight_where; cbn; lra).
  rewrite weight_where_cons. pose proof (Forall_inv H). cbn beta in *.
  specialize (IH a (Forall_inv_tail H)). destruct (P i); lra.
Qed.

Lemma weight_where_le : forall (P Q : nat -> bool) idx a, Forall (fun x => 0 <= x) a ->
  (forall i, P i = true -> Q i = true) -> weight_where P idx a <= weight_where Q idx a.
Proof.
  induction idx as [|i idx IH]; intros [|x a] H HP; try (unfold weight_where; cbn; lra).
  rewrite !weight_where_cons. pose proof (Forall_inv H). cbn beta in *.
  specialize (IH a (Forall_inv_tail H) HP). specialize (HP i).
  destruct (P i); [rewrite HP by reflexivity; lra|]. destruct (Q i); lra.
Qed.

(** Adding up the single events. *)
Lemma total_single : forall n m idx a,
  total (map (fun ev => weight_where (Nat.eqb ev) idx a) (seq m n))
  = weight_where (fun i => Nat.leb m i && Nat.ltb i (m + n)) idx a.
Proof.
  induction n as [|n IH]; intros m idx a.
  - cbn [seq map total]. rewrite (weight_where_ext _ (fun _ => false)).
    + induction idx as [|i idx IHi] in a |- *; [reflexivity|]. destruct a; [reflexivity|].
      rewrite weight_where_cons, <- IHi. lra.
    + intros i _. destruct (Nat.leb_spec m i), (Nat.ltb_spec i (m + 0)); try reflexivity; lia.
  - cbn [seq map total]. rewrite IH.
    induction idx as [|i idx IHi] in a |- *; [unfold weight_where; cbn; lra|].
    destruct a as [|x a]; [unfold weight_where; cbn; lra|].
    rewrite !weight_where_cons, <- IHi.
    destruct (Nat.eqb_spec m i), (Nat.leb_spec (S m) i), (Nat.ltb_spec i (S m + n)),
      (Nat.leb_spec m i), (Nat.ltb_spec i (m + S n)); cbn [andb]; try lia; lra.
Qed.

Lemma total_single_all : forall n idx a, Forall (fun i => (i <= n)%nat) idx ->
  total (map (fun ev => weight_where (Nat.eqb ev) idx a) (seq 1 n))
  = weight_where (fun i => negb (Nat.eqb i 0)) idx a.
Proof.
  intros n idx a H. rewrite total_single. apply weight_where_ext.
  intros i Hi. rewrite Forall_forall in H. specialize (H i Hi).
  destruct (Nat.eqb_spec i 0), (Nat.leb_spec 1 i), (Nat.ltb_spec i (1 + n));
    cbn; try reflexivity; lia.
Qed.

(** ** Filling an array. *)

Lemma add_at_ok : forall l i v, (i < length l)%nat -> exists l',
  add_at i v l = Ok l' /\ length l' = length l /\
  (forall j, nth j l' 0 = nth j l 0 + if Nat.eqb j i then v else 0) /\
  total l' = total l + v.
Proof.
  induction l as [|x l IH]; intros i v H; [cbn in H; lia|].
  destruct i as [|i]; cbn [add_at].
  - exists (x + v :: l). split; [reflexivity|]. split; [reflexivity|]. split.
    + intros [|j]; cbn [nth Nat.eqb]; lra.
    + cbn [total]. lra.
  - cbn [length] in H. destruct (IH i v ltac:(lia)) as [l' [E [L [N T]]]].
    rewrite E. cbn [bind]. exists (x :: l'). split; [reflexivity|].
    split; [cbn [length]; lia|]. split.
    + intros [|j]; cbn [nth Nat.eqb]; [lra|apply N].
    + cbn [total]. lra.
Qed.

Lemma add_at_err : forall l i v, (length l <= i)%nat -> add_at i v l = Err IndexError.
Proof.
  induction l as [|x l IH]; intros i v H; [destruct i; reflexivity|].
  destruct i as [|i]; cbn [length] in H; [lia|]. cbn [add_at]. rewrite IH by lia. reflexivity.
Qed.

Lemma add_loop_ok : forall evs pos amount a,
  (forall ev, In ev evs -> (pos ev < length a)%nat) -> exists a',
  add_loop evs pos amount a = Ok a' /\ length a' = length a /\
  (forall j, nth j a' 0
     = nth j a 0 + total (map (fun ev => if Nat.eqb j (pos ev) then amount ev else 0) evs)) /\
  total a' = total a + total (map amount evs).
Proof.
  induction evs as [|ev evs IH]; intros pos amount a H.
  - exists a. cbn [add_loop map total]. repeat split; intros; lra.
  - cbn [add_loop].
    destruct (add_at_ok a (pos ev) (amount ev) (H ev (or_introl eq_refl))) as [a1 [E [L [N T]]]].
    rewrite E. cbn [bind].
    destruct (IH pos amount a1) as [a2 [E2 [L2 [N2 T2]]]].
    { intros e He. rewrite L. apply H. right; assumption. }
    exists a2. split; [exact E2|]. split; [lia|]. split.
    + intro j. rewrite N2, N. cbn [map total]. lra.
    + rewrite T2, T. cbn [map total]. lra.
Qed.

Lemma zeros_length : forall k, length (zeros k) = k.
Proof. intros. apply repeat_length. Qed.
Lemma zeros_nth : forall k j, nth j (zeros k) 0 = 0.
Proof.
  intros k j. unfold zeros. revert j. induction k as [|k IH]; intros [|j]; cbn; auto.
Qed.
Lemma zeros_total : forall k, total (zeros k) = 0.
Proof. unfold zeros. induction k as [|k IH]; [reflexivity|]. cbn [repeat total]. rewrite IH. lra. Qed.

(** One nonzero term. *)
Lemma total_pick : forall n m j f,
  total (map (fun ev => if Nat.eqb j ev then f ev else 0) (seq m n))
  = if Nat.leb m j && Nat.ltb j (m + n) then f j else 0.
Proof.
  induction n as [|n IH]; intros m j f; cbn [seq map total].
  - destruct (Nat.leb_spec m j), (Nat.ltb_spec j (m + 0)); cbn; try reflexivity; lia.
  - rewrite IH.
    destruct (Nat.eqb_spec j m), (Nat.leb_spec (S m) j), (Nat.ltb_spec j (S m + n)),
      (Nat.leb_spec m j), (Nat.ltb_spec j (m + S n)); cbn [andb]; subst; try lia; lra.
Qed.

(** Sums by event of an array of zeros or of a list. *)
Lemma event_array : forall idx w n m,
  length idx = length w -> (n < m)%nat ->
  exists a, add_loop (seq 1 n) (fun ev => ev) (sum_at w idx) (zeros m) = Ok a /\
    length a = m /\ nth 0 a 0 = 0 /\
    (forall e, (1 <= e <= n)%nat -> nth e a 0 = weight_where (Nat.eqb e) idx w) /\
    (forall e, (n < e)%nat -> nth e a 0 = 0) /\
    total a = weight_where (fun i => Nat.leb 1 i && Nat.ltb i (1 + n)) idx w.
Proof.
  intros idx w n m Hl Hm.
  destruct (add_loop_ok (seq 1 n) (fun ev => ev) (sum_at w idx) (zeros m)) as [a [E [L [N T]]]].
  { intros ev He. apply in_seq in He. rewrite zeros_length. lia. }
  exists a. split; [exact E|]. rewrite zeros_length in L. split; [exact L|].
  assert (N' : forall e, nth e a 0 = if Nat.leb 1 e && Nat.ltb e (1 + n) then sum_at w idx e else 0).
  { intro e. rewrite N, zeros_nth, total_pick. lra. }
  split; [rewrite N'; reflexivity|]. split; [|split].
  - intros e He. rewrite N', <- sum_at_where by assumption.
    destruct (Nat.leb_spec 1 e), (Nat.ltb_spec e (1 + n)); try lia. reflexivity.
  - intros e He. rewrite N'.
    destruct (Nat.leb_spec 1 e), (Nat.ltb_spec e (1 + n)); try lia; reflexivity.
  - rewrite T, zeros_total, <- total_single.
    rewrite (total_map_ext (sum_at w idx) (fun ev => weight_where (Nat.eqb ev) idx w)); [lra|].
    intros; apply sum_at_where; assumption.
Qed.

Lemma add_loop_head : forall evs pos amount x a,
  (forall ev, In ev evs -> (1 <= pos ev)%nat) ->
  add_loop evs pos amount (x :: a)
  = bind (add_loop evs pos amount (0 :: a)) (fun l => Ok (x :: tl l)).
Proof.
  induction evs as [|ev evs IH]; intros pos amount x a H; [reflexivity|].
  cbn [add_loop]. pose proof (H ev (or_introl eq_refl)).
  destruct (pos ev) as [|p] eqn:E; [lia|]. cbn [add_at].
  destruct (add_at p (amount ev) a) as [a'|e]; [|reflexivity]. cbn [bind].
  rewrite IH by (intros; apply H; right; assumption). reflexivity.
Qed.

Theorem calc_refl_trans_event_ok : forall rp ip tp ri ti n,
  length ri = length rp -> length ti = length tp ->
  exists re te, calc_refl_trans_event rp ip tp ri ti n = Ok (re, te) /\
    length re = (2 * n + 1)%nat /\ length te = (2 * n + 1)%nat /\
    nth 0 re 0 = total ip /\ nth 0 te 0 = 0 /\
    (forall e, (1 <= e <= n)%nat -> nth e re 0 = weight_where (Nat.eqb e) ri rp /\
                                    nth e te 0 = weight_where (Nat.eqb e) ti tp) /\
    (forall e, (n < e)%nat -> nth e re 0 = 0 /\ nth e te 0 = 0) /\
    (Forall (fun i => (i <= n)%nat) ri ->
       total re = total ip + weight_where (fun i => negb (Nat.eqb i 0)) ri rp) /\
    (Forall (fun i => (i <= n)%nat) ti ->
       total te = weight_where (fun i => negb (Nat.eqb i 0)) ti tp).
Proof.
  intros rp ip tp ri ti n Hr Ht. unfold calc_refl_trans_event.
  destruct (event_array ri rp n (2 * n + 1) Hr ltac:(lia)) as [r [Er [Lr [R0 [R1 [R2 R3]]]]]].
  destruct (event_array ti tp n (2 * n + 1) Ht ltac:(lia)) as [t [Et [Lt [T0 [T1 [T2 T3]]]]]].
  rewrite add_loop_head by (intros ev He; apply in_seq in He; lia).
  replace (0 :: zeros (2 * n)) with (zeros (2 * n + 1))
    by (rewrite Nat.add_1_r; reflexivity).
  rewrite Er. cbn [bind]. rewrite Et. cbn [bind].
  destruct r as [|r0 r]; [cbn in Lr; lia|]. cbn [tl].
  exists (Rsum ip :: r), t. split; [reflexivity|].
  cbn [length] in *. split; [lia|]. split; [lia|].
  split; [cbn [nth]; apply Rsum_total|]. split; [exact T0|]. split; [|split; [|split]].
  - intros e He. split; [|apply T1; assumption]. rewrite <- R1 by assumption.
    destruct e; [lia|reflexivity].
  - intros e He. split; [|apply T2; assumption].
    destruct e; [lia|exact (R2 (S e) He)].
  - intro F. cbn [total nth] in R3, R0 |- *. rewrite (Rsum_total ip). subst r0.
    rewrite <- (total_single_all n ri rp F), total_single, <- R3. lra.
  - intro F. rewrite T3, <- (total_single_all n ti tp F), total_single. reflexivity.
Qed.

(** ** Fresnel redistribution. *)

Lemma map_scaled_total : forall c w idx n, length idx = length w ->
  Forall (fun i => (i <= n)%nat) idx ->
  total (map (fun ev => c * sum_at w idx ev) (seq 1 n))
  = c * weight_where (fun i => negb (Nat.eqb i 0)) idx w.
Proof.
  intros c w idx n Hl H. rewrite <- (total_single_all n idx w H).
  rewrite total_map_scale. f_equal. apply total_map_ext.
  intros; apply sum_at_where; assumption.
Qed.

Lemma total_map2_plus : forall a b, length a = length b ->
  total (map2 Rplus a b) = total a + total b.
Proof.
  induction a as [|x a IH]; intros [|y b] H; try discriminate; cbn [map2 total]; [lra|].
  rewrite IH by (cbn in H; lia). lra.
Qed.

Lemma map2_length' : forall (a b : list R), length a = length b ->
  length (map2 Rplus a b) = length a.
Proof.
  induction a as [|x a IH]; intros [|y b] H; try discriminate; [reflexivity|].
  cbn [map2 length]. rewrite IH by (cbn in H; lia). reflexivity.
Qed.

Lemma map2_nth' : forall (a b : list R) j, length a = length b ->
  nth j (map2 Rplus a b) 0 = nth j a 0 + nth j b 0.
Proof.
  induction a as [|x a IH]; intros [|y b] j H; try discriminate.
  - cbn. destruct j; lra.
  - destruct j; cbn [map2 nth]; [reflexivity|]. apply IH. cbn in H; lia.
Qed.

Lemma total_nonneg_map : forall (f : nat -> R) l, (forall e, In e l -> 0 <= f e) ->
  0 <= total (map f l).
Proof.
  intros f l. induction l as [|e l IH]; intro H; cbn [map total]; [lra|].
  pose proof (H e (or_introl eq_refl)). specialize (IH (fun e' He => H e' (or_intror He))). lra.
Qed.

Lemma two_loops : forall (n m : nat) (p1 p2 : nat -> nat) (f1 f2 : nat -> R) (re : list R),
  length re = m ->
  (forall ev, (1 <= ev <= n)%nat -> (p1 ev < m)%nat /\ (p2 ev < m)%nat) ->
  exists out,
    bind (add_loop (seq 1 n) p1 f1 (zeros m)) (fun a =>
    bind (add_loop (seq 1 n) p2 f2 a) (fun a => Ok (map2 Rplus re a))) = Ok out /\
    length out = m /\
    total out = total re + total (map f1 (seq 1 n)) + total (map f2 (seq 1 n)) /\
    (forall j, nth j out 0 = nth j re 0
       + total (map (fun ev => if Nat.eqb j (p1 ev) then f1 ev else 0) (seq 1 n))
       + total (map (fun ev => if Nat.eqb j (p2 ev) then f2 ev else 0) (seq 1 n))).
Proof.
  intros n m p1 p2 f1 f2 re Hm Hp.
  destruct (add_loop_ok (seq 1 n) p1 f1 (zeros m)) as [a [Ea [La [Na Ta]]]].
  { intros ev He. apply in_seq in He. rewrite zeros_length. apply Hp. lia. }
  rewrite Ea. cbn [bind]. rewrite zeros_length in La.
  destruct (add_loop_ok (seq 1 n) p2 f2 a) as [b [Eb [Lb [Nb Tb]]]].
  { intros ev He. apply in_seq in He. rewrite La. apply Hp. lia. }
  rewrite Eb. cbn [bind]. eexists. split; [reflexivity|].
  split; [rewrite map2_length' by lia; assumption|]. split.
  - rewrite total_map2_plus by lia. rewrite Tb, Ta, zeros_total. lra.
  - intro j. rewrite map2_nth' by lia. rewrite Nb, Na, zeros_nth. lra.
Qed.

Lemma fresnel_pdf_ok : forall re sr st ri ti rf tf cr ct n,
  length re = (2 * n + 1)%nat -> length ri = length rf -> length ti = length tf ->
  Forall (fun i => (i <= n)%nat) ri -> Forall (fun i => (i <= n)%nat) ti ->
  Forall (fun i => (i <= n)%nat) sr -> Forall (fun i => (i <= n)%nat) st ->
  exists out, calc_refl_event_fresnel_pdf re sr st ri ti rf tf cr ct n = Ok out /\
    length out = length re /\
    total out = total re + cr * weight_where (fun i => negb (Nat.eqb i 0)) ri rf
                         + ct * weight_where (fun i => negb (Nat.eqb i 0)) ti tf /\
    (0 <= cr -> 0 <= ct -> Forall (fun x => 0 <= x) rf -> Forall (fun x => 0 <= x) tf ->
       forall j, nth j re 0 <= nth j out 0) /\
    (forall j, nth j out 0 = nth j re 0
       + total (map (fun ev => if Nat.eqb j (ev + nth ev sr 0%nat)
                  then cr * weight_where (Nat.eqb ev) ri rf else 0) (seq 1 n))
       + total (map (fun ev => if Nat.eqb j (ev + nth ev st 0%nat)
                  then ct * weight_where (Nat.eqb ev) ti tf else 0) (seq 1 n))).
Proof.
  intros re sr st ri ti rf tf cr ct n Hre Hri Hti Fri Fti Fsr Fst.
  assert (B : forall s ev, Forall (fun i => (i <= n)%nat) s -> (nth ev s 0%nat <= n)%nat).
  { intros s ev F. destruct (Nat.lt_ge_cases ev (length s)).
    - rewrite Forall_forall in F. apply F, nth_In; assumption.
    - rewrite nth_overflow by assumption. lia. }
  unfold calc_refl_event_fresnel_pdf.
  destruct (two_loops n (2 * n + 1) (fun ev => (ev + nth ev sr 0)%nat)
    (fun ev => (ev + nth ev st 0)%nat) (fun ev => cr * sum_at rf ri ev)
    (fun ev => ct * sum_at tf ti ev) re Hre) as [out [E [L [T N]]]].
  { intros ev He. pose proof (B sr ev Fsr). pose proof (B st ev Fst). lia. }
  exists out. split; [exact E|]. split; [lia|]. split; [|split].
  - rewrite T, !map_scaled_total by assumption. reflexivity.
  - intros C1 C2 F1 F2 j. rewrite N.
    assert (0 <= total (map (fun ev => if Nat.eqb j (ev + nth ev sr 0%nat)
               then cr * sum_at rf ri ev else 0) (seq 1 n))).
    { apply total_nonneg_map. intros e _. destruct (Nat.eqb _ _); [|lra].
      rewrite sum_at_where by assumption.
      apply Rmult_le_pos; [assumption|apply weight_where_nonneg; assumption]. }
    assert (0 <= total (map (fun ev => if Nat.eqb j (ev + nth ev st 0%nat)
               then ct * sum_at tf ti ev else 0) (seq 1 n))).
    { apply total_nonneg_map. intros e _. destruct (Nat.eqb _ _); [|lra].
      rewrite sum_at_where by assumption.
      apply Rmult_le_pos; [assumption|apply weight_where_nonneg; assumption]. }
    lra.
  - intro j. rewrite N. f_equal; [f_equal|]; apply total_map_ext; intros ev _;
      rewrite sum_at_where by assumption; reflexivity.
Qed.

Lemma avg_event_range : forall n idx a, Forall (fun i => (i <= n)%nat) idx ->
  avg_event idx = Some a -> (1 <= a <= Z.of_nat n)%Z.
Proof.
  intros n idx a H. unfold avg_event. cbv zeta.
  set (l := filter (fun i => negb (Nat.eqb i 0)) idx).
  assert (F : Forall (fun i => (1 <= i <= n)%nat) l).
  { apply Forall_forall. intros i Hi. apply filter_In in Hi. destruct Hi as [Hi Hn].
    rewrite Forall_forall in H. specialize (H i Hi).
    destruct (Nat.eqb_spec i 0); [discriminate|lia]. }
  clearbody l. destruct l as [|i0 l0]; [discriminate|].
  intro E. set (l := i0 :: l0) in *.
  assert (E' : a = M_refractive_index.round_half_even (Rsum (map INR l) / INR (length l)))
    by congruence. clear E. subst a.
  assert (L : 1 <= INR (length l)).
  { unfold l. change 1 with (INR 1). apply le_INR. cbn [length]. lia. }
  assert (S : INR (length l) <= Rsum (map INR l) <= INR n * INR (length l)).
  { clear L. induction F as [|i k Hi F IH].
    - cbn. lra.
    - cbn [map Rsum fold_right]. fold (Rsum (map INR k)). cbn [length]. rewrite S_INR.
      assert (1 <= INR i) by (change 1 with (INR 1); apply le_INR; lia).
      assert (INR i <= INR n) by (apply le_INR; lia). lra. }
  set (x := Rsum (map INR l) / INR (length l)).
  assert (X : 1 <= x <= INR n).
  { unfold x. split.
    - apply (Rmult_le_reg_r (INR (length l))); [lra|]. unfold Rdiv.
      rewrite Rmult_assoc, Rinv_l by lra. lra.
    - apply (Rmult_le_reg_r (INR (length l))); [lra|]. unfold Rdiv.
      rewrite Rmult_assoc, Rinv_l by lra. lra. }
  pose proof (round_half_even_err x) as HR.
  apply Rabs_le_between in HR. rewrite INR_IZR_INZ in X.
  split.
  - assert (IZR 0 < IZR (M_refractive_index.round_half_even x)) by lra. apply lt_IZR in H0. fold x. lia.
  - assert (IZR (M_refractive_index.round_half_even x) < IZR (Z.of_nat n + 1)) by (rewrite plus_IZR; lra).
    apply lt_IZR in H0. fold x. lia.
Qed.

Lemma avg_event_none : forall idx, avg_event idx = None <-> Forall (fun i => i = 0%nat) idx.
Proof.
  intro idx. unfold avg_event. cbv zeta. split.
  - intro H. apply Forall_forall. intros i Hi.
    destruct (Nat.eqb_spec i 0) as [|Hn]; [assumption|].
    assert (In i (filter (fun i => negb (Nat.eqb i 0)) idx)).
    { apply filter_In. split; [assumption|]. destruct (Nat.eqb_spec i 0); [contradiction|reflexivity]. }
    destruct (filter _ idx); [contradiction|discriminate].
  - intro F. induction F as [|i l Hi F IH]; [reflexivity|]. subst i. exact IH.
Qed.

Lemma fresnel_avg_ok : forall re ri ti rf tf cr ct n,
  length re = (2 * n + 1)%nat -> length ri = length rf -> length ti = length tf ->
  Forall (fun i => (i <= n)%nat) ri -> Forall (fun i => (i <= n)%nat) ti ->
  Exists (fun i => i <> 0%nat) ri -> Exists (fun i => i <> 0%nat) ti ->
  exists out, calc_refl_event_fresnel_avg re ri ti rf tf cr ct n = Ok out /\
    length out = length re /\
    total out = total re + cr * weight_where (fun i => negb (Nat.eqb i 0)) ri rf
                         + ct * weight_where (fun i => negb (Nat.eqb i 0)) ti tf.
Proof.
  intros re ri ti rf tf cr ct n Hre Hri Hti Fri Fti Eri Eti.
  assert (A : forall idx, Exists (fun i => i <> 0%nat) idx -> exists a, avg_event idx = Some a).
  { intros idx X. destruct (avg_event idx) as [a|] eqn:E; [eauto|].
    apply avg_event_none in E. exfalso. apply Exists_exists in X. destruct X as [i [Hi Hn]].
    rewrite Forall_forall in E. apply Hn, E, Hi. }
  destruct (A ri Eri) as [ar Ear]. destruct (A ti Eti) as [at_ Eat].
  pose proof (avg_event_range n ri ar Fri Ear). pose proof (avg_event_range n ti at_ Fti Eat).
  unfold calc_refl_event_fresnel_avg. rewrite Ear, Eat.
  destruct n as [|n]; [lia|]. set (m := S n) in *.
  destruct (two_loops m (2 * m + 1) (fun ev => Z.to_nat (Z.of_nat ev + ar))
    (fun ev => Z.to_nat (Z.of_nat ev + at_)) (fun ev => cr * sum_at rf ri ev)
    (fun ev => ct * sum_at tf ti ev) re Hre) as [out [E [L [T _]]]].
  { intros ev He. lia. }
  exists out. split; [exact E|]. split; [lia|].
  rewrite T, !map_scaled_total by assumption. reflexivity.
Qed.

Lemma fresnel_avg_err : forall re ri ti rf tf cr ct n, (1 <= n)%nat ->
  Forall (fun i => i = 0%nat) ri \/ Forall (fun i => i = 0%nat) ti ->
  calc_refl_event_fresnel_avg re ri ti rf tf cr ct n = Err ValueError.
Proof.
  intros re ri ti rf tf cr ct [|n] Hn H; [lia|]. unfold calc_refl_event_fresnel_avg.
  destruct H as [H|H]; apply avg_event_none in H; rewrite H; [reflexivity|].
  destruct (avg_event ri); reflexivity.
Qed.

(** ** The densities. *)

Lemma normalise_ok : forall l, 0 < total l -> exists p,
  normalise l = map Some p /\ length p = length l /\ total p = 1 /\
  (Forall (fun x => 0 <= x) l -> Forall (fun x => 0 <= x) p).
Proof.
  intros l H. exists (map (fun x => x / total l) l). unfold normalise.
  assert (E : map (fun x => ndiv x (Rsum l)) l = map Some (map (fun x => x / total l) l)).
  { rewrite map_map. apply map_ext. intro x. unfold ndiv. pose proof (Rsum_total l) as S.
    rewrite S. rewrite (proj2 (Reqb_false (total l) 0)) by lra. reflexivity. }
  split; [exact E|]. split; [apply map_length|]. split.
  - assert (K : forall c k, total (map (fun x => x / c) k) = total k / c).
    { intros c k. induction k as [|x k IH]; cbn [map total]; [unfold Rdiv; lra|].
      rewrite IH. unfold Rdiv. ring. }
    rewrite K. field. lra.
  - intro F. apply Forall_map. apply Forall_forall. intros x Hx. rewrite Forall_forall in F.
    apply Rmult_le_pos; [apply F; assumption|left; apply Rinv_0_lt_compat; assumption].
Qed.

Lemma slice_length : forall l lo hi, length (slice l lo hi) = (Nat.min hi (length l) - lo)%nat.
Proof. intros. unfold slice. rewrite skipn_length, firstn_length. reflexivity. Qed.

Lemma slice_nth : forall l lo hi j, (lo + j < hi)%nat -> (hi <= length l)%nat ->
  nth j (slice l lo hi) 0 = nth (lo + j) l 0.
Proof.
  intros l lo hi j H1 H2. unfold slice. 
  rewrite <- (firstn_skipn hi l) at 2.
  rewrite (app_nth1 (firstn hi l)) by (rewrite firstn_length; lia).
  rewrite <- (firstn_skipn lo (firstn hi l)) at 2.
  rewrite app_nth2; rewrite firstn_length, firstn_length; [|lia].
  f_equal. lia.
Qed.
