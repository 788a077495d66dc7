(** Proofs about sample_angles (C110, C111). *)
From Coq Require Import Lra Lia Psatz.
From Verif Require Import Num Spec L_num M_montecarlo M_scat Spec_scat L_montecarlo L_montecarlo2 L_sizes L_trapezoid.
Open Scope R_scope.

Lemma cumsum_ge q : forall acc c, Forall (fun x => 0 <= x) q -> In c (cumsum_from acc q) -> acc <= c.
Proof.
  induction q as [|x q IH]; intros acc c H Hc; cbn in Hc; [contradiction|].
  inversion_clear H. destruct Hc as [<-|Hc]; [lra|]. specialize (IH (acc + x) c H1 Hc). lra.
Qed.

Lemma filter_none {A} (f : A -> bool) l : (forall a, In a l -> f a = false) -> filter f l = [].
Proof.
  induction l as [|a l IH]; intros H; [reflexivity|]. cbn. rewrite (H a) by now left. apply IH. intros; apply H; now right.
Qed.

Lemma count_cdf u : forall q acc, Forall (fun x => 0 <= x) q -> acc <= u < acc + total q ->
  let i := length (filter (fun c => Rleb c u) (cumsum_from acc q)) in
  (i < length q)%nat /\ acc + total (firstn i q) <= u < acc + total (firstn (S i) q).
Proof.
  induction q as [|x q IH]; intros acc Hq Hu; cbn [total] in Hu; [lra|].
  inversion_clear Hq as [|a b Hx Hq']. cbn [cumsum_from filter]. destruct (Rleb (acc + x) u) eqn:E.
  - apply Rleb_true in E. cbn [length].
    destruct (IH (acc + x) Hq' ltac:(lra)) as [Hl Hb].
    set (i := length (filter _ (cumsum_from (acc + x) q))) in *. cbv zeta.
    split; [lia|]. destruct q as [|y q0]; [cbn in Hl; lia|]. cbn [firstn total] in *. lra.
  - apply Rleb_false in E. rewrite filter_none.
    + cbn [length firstn total]. split; [lia|]. lra.
    + intros c Hc. apply Rleb_false. pose proof (cumsum_ge q (acc + x) c Hq' Hc). lra.
Qed.

Lemma last_cumsum q : forall acc, q <> [] -> last (cumsum_from acc q) 0 = acc + total q.
Proof.
  induction q as [|x q IH]; intros acc H; [congruence|]. destruct q as [|y q].
  - cbn. lra.
  - cbn [cumsum_from]. change (last (acc + x :: acc + x + y :: cumsum_from (acc + x + y) q) 0)
      with (last (cumsum_from (acc + x) (y :: q)) 0).
    rewrite IH by discriminate. cbn [total]. lra.
Qed.

Lemma total_firstn_seq (w : nat -> R) n i : (i <= n)%nat ->
  total (firstn i (map w (seq 0 n))) = total (map w (seq 0 i)).
Proof.
  intros H. rewrite firstn_map. replace n with (i + (n - i))%nat by lia.
  rewrite seq_app, firstn_app, seq_length, Nat.sub_diag, firstn_all2 by (rewrite seq_length; lia).
  cbn [firstn]. now rewrite app_nil_r.
Qed.

Lemma choice_picks (w : nat -> R) n u :
  (forall i, (i < n)%nat -> 0 <= w i) -> 0 < total (map w (seq 0 n)) -> 0 <= u < 1 ->
  exists i, choice (normalise (map w (seq 0 n))) u = Ok i /\ picks w n u i.
Proof.
  intros Hw Ht Hu. set (s := total (map w (seq 0 n))) in *.
  assert (Hs : s <> 0) by (apply Rgt_not_eq; exact Ht).
  rewrite normalise_somes by exact Hs. fold s. set (q := map (fun x => x / s) (map w (seq 0 n))).
  assert (Hq : Forall (fun x => 0 <= x) q).
  { unfold q. rewrite map_map. apply Forall_map, Forall_forall. intros i Hi. apply in_seq in Hi.
    apply Rmult_le_pos; [apply Hw; lia|left; now apply Rinv_0_lt_compat]. }
  assert (Hq1 : total q = 1). { unfold q. rewrite total_div by exact Hs. fold s. field. lra. }
  assert (Hql : length q = n) by (unfold q; now rewrite !map_length, seq_length).
  unfold choice. rewrite get_all_some.
  assert (Hex : existsb (fun x => Rltb x 0) q = false).
  { clear - Hq. induction Hq as [|x q Hx Hq IH]; [reflexivity|]. cbn. rewrite IH, (proj2 (Rltb_false x 0)) by lra. reflexivity. }
  rewrite Hex. rewrite Rsum_total, Hq1. rewrite (proj2 (Rltb_false _ _)).
  2:{ replace (1 - 1) with 0 by ring. rewrite Rabs_R0. left. apply Rinv_0_lt_compat. apply pow_lt. lra. }
  unfold cumsum. assert (Hne : q <> []) by (intros E; rewrite E in Hq1; cbn in Hq1; lra).
  rewrite last_cumsum by exact Hne. rewrite Hq1.
  rewrite (filter_ext (fun c => Rleb (c / (0 + 1)) u) (fun c => Rleb c u)).
  2:{ intros c. now replace (c / (0 + 1)) with c by field. }
  destruct (count_cdf u q 0 Hq ltac:(lra)) as [Hl Hb]. set (i := length (filter _ _)) in *.
  exists i. split; [reflexivity|]. split; [lia|].
  assert (F : forall k, (k <= n)%nat -> total (firstn k q) = total (map w (seq 0 k)) / s).
  { intros k Hk. unfold q. rewrite firstn_map, total_div by exact Hs. now rewrite total_firstn_seq. }
  rewrite !F in Hb by lia. fold s. destruct Hb as [B1 B2]. rewrite Rplus_0_l in *.
  split.
  - apply Rmult_le_compat_r with (r := s) in B1; [|lra]. unfold Rdiv in B1. rewrite Rmult_assoc, Rinv_l in B1 by lra. lra.
  - apply Rmult_lt_compat_r with (r := s) in B2; [|lra]. unfold Rdiv in B2. rewrite Rmult_assoc, Rinv_l in B2 by lra. lra.
Qed.

(** The picked item is unique. *)
Lemma total_seq_mono (w : nat -> R) n i k : (forall j, (j < n)%nat -> 0 <= w j) -> (i <= k <= n)%nat ->
  total (map w (seq 0 i)) <= total (map w (seq 0 k)).
Proof.
  intros Hw H. replace k with (i + (k - i))%nat by lia. rewrite seq_app, map_app, total_app.
  assert (0 <= total (map w (seq (0 + i) (k - i)))); [|lra].
  apply total_map_nonneg. intros j Hj. apply in_seq in Hj. apply Hw. lia.
Qed.
Lemma picks_unique (w : nat -> R) n u i k : (forall j, (j < n)%nat -> 0 <= w j) ->
  picks w n u i -> picks w n u k -> i = k.
Proof.
  intros Hw (Hi & A1 & A2) (Hk & B1 & B2).
  destruct (Nat.lt_trichotomy i k) as [H|[H|H]]; [|exact H|]; exfalso.
  - pose proof (total_seq_mono w n (S i) k Hw ltac:(lia)). lra.
  - pose proof (total_seq_mono w n (S k) i Hw ltac:(lia)). lra.
Qed.

Lemma map2_linspace (p : list R) (f : R -> R -> R) lo hi :
  map2 (fun x t => f x t) p (linspace lo hi (length p))
  = map (fun i => f (nth i p 0) (grid lo hi (length p) i)) (seq 0 (length p)).
Proof.
  unfold linspace, grid. generalize ((hi - lo) / INR (length p - 1)) as h. intros h.
  assert (G : forall p k, map2 (fun x t => f x t) p (map (fun i => lo + INR i * h) (seq k (length p)))
            = map (fun i => f (nth (i - k) p 0) (lo + INR i * h)) (seq k (length p))).
  { clear p. induction p as [|x p IH]; intros k; [reflexivity|]. cbn [length seq map map2]. f_equal.
    - now rewrite Nat.sub_diag.
    - rewrite IH. apply map_ext_in. intros i Hi. apply in_seq in Hi.
      replace (i - k)%nat with (S (i - S k)) by lia. reflexivity. }
  rewrite G. apply map_ext_in. intros i _. now rewrite Nat.sub_0_r.
Qed.

Lemma grid_range lo hi n i : lo <= hi -> (i < n)%nat -> lo <= grid lo hi n i <= hi.
Proof.
  intros H Hi. assert (In (grid lo hi n i) (linspace lo hi n)).
  { unfold linspace, grid. apply in_map_iff. exists i. split; [reflexivity|]. apply in_seq. lia. }
  now apply linspace_in in H0.
Qed.

Lemma nth_linspace lo hi n i : (i < n)%nat -> nth i (linspace lo hi n) 0 = grid lo hi n i.
Proof.
  intros Hi. unfold linspace, grid. set (g := fun i => lo + INR i * ((hi - lo) / INR (n - 1))).
  rewrite (nth_indep _ 0 (g 0%nat)) by (rewrite map_length, seq_length; exact Hi).
  rewrite (map_nth g), seq_nth by exact Hi. reflexivity.
Qed.

Lemma angle_1d p lo up ut :
  0 <= lo <= PI -> Forall (fun x => 0 <= x) p -> 0 <= ut < 1 ->
  let w i := nth i p 0 * sin (grid lo PI (length p) i) in
  0 < total (map w (seq 0 (length p))) ->
  exists i, sample_angle_1d p lo up ut = Ok (grid lo PI (length p) i, 2 * PI * up) /\ picks w (length p) ut i.
Proof.
  intros Hlo Hp Hu w Ht. unfold sample_angle_1d, sample_angles_prob. cbv zeta. pose proof PI_RGT_0 as HP.
  rewrite (map2_linspace p (fun x t => x * sin t * 2 * PI)).
  set (w' := fun i => nth i p 0 * sin (grid lo PI (length p) i) * 2 * PI).
  assert (E : forall l, total (map w' l) = 2 * PI * total (map w l)).
  { intros l. rewrite <- total_map_scale. apply total_map_ext. intros i _. unfold w', w. ring. }
  assert (Hw : forall i, (i < length p)%nat -> 0 <= w i).
  { intros i Hi. unfold w. apply Rmult_le_pos.
    - rewrite Forall_forall in Hp. apply Hp. now apply nth_In.
    - destruct (grid_range lo PI (length p) i) as [A B]; try lra; try assumption. apply sin_ge_0; lra. }
  destruct (choice_picks w' (length p) ut) as (i & Ei & Hi & B1 & B2).
  - intros i Hi. specialize (Hw i Hi). unfold w'. fold (w i). nra.
  - rewrite E. nra.
  - exact Hu.
  - cbv beta; fold w'; match goal with |- context[choice ?a _] => match type of Ei with choice ?b _ = _ => change a with b end end; rewrite Ei. cbn [bind]. exists i. rewrite nth_linspace by exact Hi.
    split; [reflexivity|]. rewrite !E in B1, B2. split; [exact Hi|]. split; nra.
Qed.

(** Arrays of draws. *)
Lemma rows_of_ok {A} (f : nat -> nat -> result A) (Q : nat -> nat -> A -> Prop) ntraj e :
  (forall i, (i < ntraj)%nat -> exists a, f e i = Ok a /\ Q e i a) ->
  forall i, (i <= ntraj)%nat -> exists l, rows_of f ntraj e i = Ok l /\ length l = i
    /\ forall j a, nth_error l j = Some a -> Q e (ntraj - i + j)%nat a.
Proof.
  intros H. induction i as [|i IH]; intros Hi.
  - exists []. repeat split. intros [|j] a Ha; discriminate.
  - destruct (H (ntraj - S i)%nat ltac:(lia)) as (a & Ea & Qa).
    destruct (IH ltac:(lia)) as (l & El & Ll & Hl).
    exists (a :: l). cbn [rows_of]. rewrite Ea. cbn [bind]. rewrite El. split; [reflexivity|]. split; [cbn; lia|].
    intros [|j] b Hb.
    + injection Hb as <-. now rewrite Nat.add_0_r.
    + cbn in Hb. specialize (Hl j b Hb). replace (ntraj - S i + S j)%nat with (ntraj - i + j)%nat by lia. exact Hl.
Qed.
Lemma events_of_ok {A} (f : nat -> nat -> result A) (Q : nat -> nat -> A -> Prop) nev ntraj :
  (forall e i, (e < nev)%nat -> (i < ntraj)%nat -> exists a, f e i = Ok a /\ Q e i a) ->
  exists l, events_of f nev ntraj nev = Ok l /\ length l = nev
    /\ forall e row, nth_error l e = Some row -> length row = ntraj
        /\ forall i a, nth_error row i = Some a -> Q e i a.
Proof.
  intros H.
  assert (G : forall k, (k <= nev)%nat -> exists l, events_of f nev ntraj k = Ok l /\ length l = k
    /\ forall e row, nth_error l e = Some row -> length row = ntraj
        /\ forall i a, nth_error row i = Some a -> Q (nev - k + e)%nat i a).
  { induction k as [|k IH]; intros Hk.
    - exists []. repeat split; destruct e; discriminate.
    - destruct (rows_of_ok f Q ntraj (nev - S k)%nat) with (i := ntraj) as (r & Er & Lr & Hr); [|lia|].
      { intros i Hi. apply H; lia. }
      destruct (IH ltac:(lia)) as (l & El & Ll & Hl).
      exists (r :: l). cbn [events_of]. rewrite Er. cbn [bind]. rewrite El. split; [reflexivity|]. split; [cbn; lia|].
      intros [|e] row Hrow.
      + injection Hrow as <-. split; [exact Lr|]. intros i a Ha. specialize (Hr i a Ha).
        rewrite Nat.sub_diag in Hr. now rewrite Nat.add_0_r.
      + cbn in Hrow. destruct (Hl e row Hrow) as [L1 L2]. split; [exact L1|].
        intros i a Ha. specialize (L2 i a Ha). replace (nev - S k + S e)%nat with (nev - k + e)%nat by lia. exact L2. }
  destruct (G nev ltac:(lia)) as (l & E & L & Hl). exists l. split; [exact E|]. split; [exact L|].
  intros e row Hrow. destruct (Hl e row Hrow) as [L1 L2]. split; [exact L1|].
  intros i a Ha. specialize (L2 i a Ha). now rewrite Nat.sub_diag in L2.
Qed.

(** * Two-dimensional phase functions *)
Lemma nth_map_seq {A} (f : nat -> A) n i d : (i < n)%nat -> nth i (map f (seq 0 n)) d = f i.
Proof.
  intros H. rewrite (nth_indep _ d (f 0%nat)) by (now rewrite map_length, seq_length).
  rewrite (map_nth f), seq_nth by exact H. reflexivity.
Qed.
Lemma column_entry p m n j : table p m n -> (j < n)%nat ->
  column p j = map (fun i => entry p i j) (seq 0 m) /\ forall i, (i < m)%nat -> 0 <= entry p i j.
Proof.
  intros (Hm & Hr) Hj. split.
  - unfold column, entry. apply (nth_ext _ _ 0 0); [now rewrite !map_length, seq_length|].
    intros i Hi. rewrite map_length in Hi.
    rewrite (nth_indep (map (fun row => nth j row 0) p) 0 ((fun row => nth j row 0) [])) by (now rewrite map_length).
    rewrite (map_nth (fun row => nth j row 0)).
    rewrite (nth_map_seq (fun i => nth j (nth i p []) 0)) by lia. reflexivity.
  - intros i Hi. unfold entry. rewrite Forall_forall in Hr.
    destruct (Hr (nth i p [])) as [Hl Hf]; [apply nth_In; lia|].
    rewrite Forall_forall in Hf. apply Hf. apply nth_In. lia.
Qed.

Lemma angle_2d p m n lo up ut :
  table p m n -> (0 < m)%nat -> 0 <= lo <= PI -> 0 <= up < 1 -> 0 <= ut < 1 ->
  let c j := total (map (fun i => entry p i j) (seq 0 m)) in
  let w j i := entry p i j * sin (grid lo PI m i) in
  (forall j, (j < n)%nat -> 0 < c j -> 0 < total (map (w j) (seq 0 m))) ->
  0 < total (map c (seq 0 n)) ->
  exists i j, sample_angle_2d p lo up ut = Ok (grid lo PI m i, grid lo (2 * PI) n j)
    /\ picks c n up j /\ picks (w j) m ut i.
Proof.
  intros Ht Hm Hlo Hup Hut c w Hw Hc. unfold sample_angle_2d. cbv zeta.
  pose proof Ht as (Hl & Hr).
  assert (En : length (hd [] p) = n).
  { destruct p as [|row p']; [cbn in Hl; lia|]. cbn. inversion_clear Hr. tauto. }
  rewrite En, Hl.
  assert (Ec : map (fun j => Rsum (column p j)) (seq 0 n) = map c (seq 0 n)).
  { apply map_ext_in. intros j Hj. apply in_seq in Hj. rewrite Rsum_total.
    destruct (column_entry p m n j Ht ltac:(lia)) as [-> _]. reflexivity. }
  rewrite Ec. destruct (choice_picks c n up) as (j & Ej & Hj); auto.
  { intros j Hj. destruct (column_entry p m n j Ht Hj) as [_ H0]. apply total_map_nonneg.
    intros i Hi. apply in_seq in Hi. apply H0. lia. }
  rewrite Ej. cbn [bind]. pose proof Hj as (Hjn & B1 & B2).
  destruct (column_entry p m n j Ht Hjn) as [Ecol H0].
  assert (Hcj : 0 < c j).
  { assert (total (map c (seq 0 (S j))) = total (map c (seq 0 j)) + c j); [|lra].
    rewrite seq_S, map_app, total_app. cbn. lra. }
  assert (Lc : length (column p j) = m) by (unfold column; now rewrite map_length).
  assert (Ew : map2 (fun x t => x * sin t) (column p j) (linspace lo PI m) = map (w j) (seq 0 m)).
  { rewrite <- Lc at 1. rewrite (map2_linspace (column p j) (fun x t => x * sin t)), Lc. apply map_ext_in. intros i Hi. apply in_seq in Hi. unfold w. f_equal. rewrite Ecol.
    rewrite (nth_map_seq (fun i => entry p i j)) by lia. reflexivity. }
  rewrite Ew. destruct (choice_picks (w j) m ut) as (i & Ei & Hi); auto.
  { intros i Hi. unfold w. apply Rmult_le_pos; [now apply H0|].
    destruct (grid_range lo PI m i) as [A B]; try lra; try assumption. apply sin_ge_0; lra. }
  rewrite Ei. cbn [bind]. exists i, j. pose proof Hi as (Him & _).
  rewrite !nth_linspace by assumption. auto.
Qed.

(** When the law is the right one. *)
Lemma joint_iff (c : nat -> R) (w : nat -> nat -> R) m n :
  (forall j, (j < n)%nat -> 0 < c j /\ 0 < total (map (w j) (seq 0 m))) -> (0 < n)%nat ->
  let W j := total (map (w j) (seq 0 m)) in
  (forall i j, (i < m)%nat -> (j < n)%nat ->
     share c n j * share (w j) m i = w j i / total (map W (seq 0 n)))
  <-> (forall j k, (j < n)%nat -> (k < n)%nat -> c j * W k = c k * W j).
Proof.
  intros H Hn W.
  assert (Pos : forall f, (forall j, (j < n)%nat -> 0 < f j) -> 0 < total (map f (seq 0 n))).
  { clear - Hn. intros f Hf. destruct n as [|n]; [lia|]. cbn [seq map total].
    assert (0 <= total (map f (seq 1 n))); [|specialize (Hf 0%nat ltac:(lia)); lra].
    apply total_map_nonneg. intros j Hj. apply in_seq in Hj. left. apply Hf. lia. }
  assert (Hc : 0 < total (map c (seq 0 n))) by (apply Pos; intros; now apply H).
  assert (HW : 0 < total (map W (seq 0 n))) by (apply Pos; intros; now apply H).
  unfold share. set (tc := total (map c (seq 0 n))) in *. set (tw := total (map W (seq 0 n))) in *.
  split.
  - intros E.
    assert (K : forall j, (j < n)%nat -> c j * tw = W j * tc).
    { intros j Hj. destruct (H j Hj) as [Cj Wj]. fold (W j) in Wj.
      assert (X : total (map (fun i => c j / tc * (w j i / W j)) (seq 0 m)) = total (map (fun i => w j i / tw) (seq 0 m))).
      { apply total_map_ext. intros i Hi. apply in_seq in Hi. apply E; [lia|exact Hj]. }
      rewrite total_map_scale in X.
      rewrite <- (map_map (w j) (fun x => x / W j)), <- (map_map (w j) (fun x => x / tw)) in X.
      rewrite !total_div in X by (apply Rgt_not_eq; assumption). fold (W j) in X.
      replace (W j / W j) with 1 in X by (field; lra).
      apply (f_equal (fun z => z * (tc * tw))) in X. field_simplify in X; lra. }
    intros j k Hj Hk. pose proof (K j Hj). pose proof (K k Hk).
    apply (Rmult_eq_reg_r (tw * tc)); [|nra].
    transitivity ((c j * tw) * (W k * tc)); [ring|]. rewrite H0, <- H1. ring.
  - intros E i j Hi Hj. destruct (H j Hj) as [Cj Wj]. fold (W j) in Wj. fold (W j).
    assert (K : c j * tw = W j * tc).
    { unfold tw, tc. rewrite <- !total_map_scale. apply total_map_ext. intros k Hk. apply in_seq in Hk.
      rewrite (E j k) by lia. ring. }
    replace (c j / tc * (w j i / W j)) with ((c j * tw) * w j i / (tc * W j * tw)) by (field; lra).
    rewrite K. field. lra.
Qed.
