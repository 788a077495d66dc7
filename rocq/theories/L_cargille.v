(** Cargille oils: the two-term value, its errors and its ordering. *)
From Coq Require Import Lra Lia Psatz.
From Verif Require Import L_num M_refractive_index Spec_optics.
Open Scope R_scope.

Lemma py_index_in : forall {A} (l : list A) (i : Z) d,
  (0 <= i < Z.of_nat (length l))%Z -> py_index l i = Ok (nth (Z.to_nat i) l d).
Proof.
  intros A l i d H. unfold py_index.
  replace (i <? 0)%Z with false by (symmetry; apply Z.ltb_ge; lia).
  replace (i <? 0)%Z with false by (symmetry; apply Z.ltb_ge; lia).
  replace (Z.of_nat (length l) <=? i)%Z with false by (symmetry; apply Z.leb_gt; lia).
  cbn [orb]. rewrite (nth_error_nth' l d) by lia. reflexivity.
Qed.

Lemma py_index_neg : forall {A} (l : list A) (i : Z) d,
  (- Z.of_nat (length l) <= i < 0)%Z ->
  py_index l i = Ok (nth (Z.to_nat (i + Z.of_nat (length l))) l d).
Proof.
  intros A l i d H. unfold py_index.
  replace (i <? 0)%Z with true by (symmetry; apply Z.ltb_lt; lia).
  replace (i + Z.of_nat (length l) <? 0)%Z with false by (symmetry; apply Z.ltb_ge; lia).
  replace (Z.of_nat (length l) <=? i + Z.of_nat (length l))%Z with false
    by (symmetry; apply Z.leb_gt; lia).
  cbn [orb]. rewrite (nth_error_nth' l d) by lia. reflexivity.
Qed.

Lemma py_index_out : forall {A} (l : list A) (i : Z),
  (i < - Z.of_nat (length l) \/ Z.of_nat (length l) <= i)%Z -> py_index l i = Err IndexError.
Proof.
  intros A l i H. unfold py_index. cbv zeta.
  destruct (Z.ltb_spec i 0).
  - replace (i + Z.of_nat (length l) <? 0)%Z with true by (symmetry; apply Z.ltb_lt; lia).
    reflexivity.
  - replace (Z.of_nat (length l) <=? i)%Z with true by (symmetry; apply Z.leb_le; lia).
    rewrite Bool.orb_true_r. reflexivity.
Qed.

(** Boolean checks on the tables, run by the kernel. *)
Definition same_lengths (t : list Z * list Z * list Z) : bool :=
  let '(c, d, e) := t in
  Nat.eqb (length c) (length d) && Nat.eqb (length c) (length e).
Definition all_nonzero (l : list Z) : bool := forallb (fun x => negb (x =? 0)%Z) l.
Definition all_positive (l : list Z) : bool := forallb (fun x => 0 <? x)%Z l.

(** [c' - c + (d' - d)/w^2 > 0] at [w = 0.4] and [w = 0.8], in units of 1e-9,
    with [1/w^2 = 25/4] and [25/16]. *)
Fixpoint ordered (c d : list Z) : bool :=
  match c, d with
  | c0 :: (c1 :: _) as ct, d0 :: (d1 :: _) as dt =>
      ((0 <? 16 * 100 * (c1 - c0) + 25 * (d1 - d0)) &&
       (0 <? 4 * 100 * (c1 - c0) + 25 * (d1 - d0)))%Z
      && match c, d with _ :: ct, _ :: dt => ordered ct dt | _, _ => true end
  | _, _ => true end.

Lemma tables_ok : forallb (fun st => same_lengths (snd st)
   && all_nonzero (snd (snd st)) && all_positive (fst (fst (snd st)))
   && all_positive (snd (fst (snd st)))
   && ordered (fst (fst (snd st))) (snd (fst (snd st)))) oil_tables = true.
Proof. vm_compute. reflexivity. Qed.

Lemma dict_get_in : forall {A} k (d : list (string * A)) v,
  dict_get k d = Ok v -> In (k, v) d.
Proof.
  intros A k d v. induction d as [|[k' v'] d IH]; cbn; [discriminate|].
  destruct (String.eqb_spec k k') as [->|N].
  - intros H; injection H as ->. left; reflexivity.
  - intros H. right. auto.
Qed.

Lemma dict_get_notin : forall {A} k (d : list (string * A)),
  ~ In k (map fst d) -> dict_get k d = Err KeyError.
Proof.
  intros A k d. induction d as [|[k' v'] d IH]; cbn; [reflexivity|].
  intros H. destruct (String.eqb_spec k k') as [->|N]; [exfalso; apply H; left; reflexivity|].
  apply IH. intros K. apply H. right; assumption.
Qed.

Lemma table_facts : forall s c d e, dict_get s oil_tables = Ok (c, d, e) ->
  length d = length c /\ length e = length c /\
  (forall i, (i < length c)%nat ->
     nth i e 0%Z <> 0%Z /\ (0 < nth i c 0)%Z /\ (0 < nth i d 0)%Z) /\
  ordered c d = true.
Proof.
  intros s c d e H. apply dict_get_in in H.
  pose proof (proj1 (forallb_forall _ _) tables_ok _ H) as K. cbn [fst snd] in K.
  apply andb_prop in K. destruct K as [K HO].
  apply andb_prop in K. destruct K as [K H0].
  apply andb_prop in K. destruct K as [K H1].
  apply andb_prop in K. destruct K as [K H2].
  unfold same_lengths in K. apply andb_prop in K. destruct K as [K1 K2].
  apply Nat.eqb_eq in K1, K2.
  split; [congruence|]. split; [congruence|]. split; [|assumption].
  intros i Hi.
  pose proof (proj1 (forallb_forall _ _) H2 (nth i e 0%Z) ltac:(apply nth_In; lia)) as Q1.
  pose proof (proj1 (forallb_forall _ _) H1 (nth i c 0%Z) ltac:(apply nth_In; lia)) as Q2.
  pose proof (proj1 (forallb_forall _ _) H0 (nth i d 0%Z) ltac:(apply nth_In; lia)) as Q3.
  cbv beta in Q1, Q2, Q3.
  destruct (Z.eqb_spec (nth i e 0%Z) 0); [discriminate|].
  apply Z.ltb_lt in Q2, Q3. auto.
Qed.

Lemma cargille_value : forall s c d e i w,
  dict_get s oil_tables = Ok (c, d, e) ->
  (0 <= i < Z.of_nat (length c))%Z ->
  n_cargille i s w = Ok (IZR (nth (Z.to_nat i) c 0%Z) / 10 ^ 7
                         + (IZR (nth (Z.to_nat i) d 0%Z) / 10 ^ 9) / w ^ 2).
Proof.
  intros s c d e i w H Hi. destruct (table_facts _ _ _ _ H) as (L1 & L2 & _ & _).
  unfold n_cargille. rewrite H. cbn [bind].
  rewrite (py_index_in c i 0%Z) by lia. rewrite (py_index_in d i 0%Z) by lia.
  rewrite (py_index_in e i 0%Z) by lia. reflexivity.
Qed.

Lemma cargille_negative : forall s c d e i w,
  dict_get s oil_tables = Ok (c, d, e) ->
  (- Z.of_nat (length c) <= i < 0)%Z ->
  n_cargille i s w = n_cargille (i + Z.of_nat (length c)) s w.
Proof.
  intros s c d e i w H Hi. rewrite (cargille_value s c d e (i + Z.of_nat (length c)) w H) by lia.
  destruct (table_facts _ _ _ _ H) as (L1 & L2 & _ & _).
  unfold n_cargille. rewrite H. cbn [bind].
  rewrite (py_index_neg c i 0%Z) by exact Hi.
  rewrite (py_index_neg d i 0%Z) by (rewrite L1; exact Hi).
  rewrite (py_index_neg e i 0%Z) by (rewrite L2; exact Hi). rewrite L1. reflexivity.
Qed.

Lemma cargille_out : forall s i w,
  (forall c d e, dict_get s oil_tables = Ok (c, d, e) ->
     (i < - Z.of_nat (length c) \/ Z.of_nat (length c) <= i)%Z) ->
  n_cargille i s w = Err ValueError.
Proof.
  intros s i w H. unfold n_cargille.
  destruct (dict_get s oil_tables) as [[[c d] e]|er] eqn:E.
  - cbn [bind]. rewrite py_index_out by (eapply H; reflexivity). reflexivity.
  - assert (er = KeyError).
    { clear -E. revert E. generalize oil_tables. induction l as [|[k v] l IH]; cbn.
      - congruence.
      - destruct (String.eqb s k); [discriminate | exact IH]. }
    subst er. reflexivity.
Qed.

Lemma cargille_decr : forall s c d e i w w',
  dict_get s oil_tables = Ok (c, d, e) ->
  (0 <= i < Z.of_nat (length c))%Z -> 0 < w -> w < w' ->
  exists v v', n_cargille i s w = Ok v /\ n_cargille i s w' = Ok v' /\ 0 < v' < v.
Proof.
  intros s c d e i w w' H Hi Hw Hww.
  rewrite !(cargille_value s c d e i _ H Hi).
  destruct (table_facts _ _ _ _ H) as (L1 & L2 & F & _).
  destruct (F (Z.to_nat i) ltac:(lia)) as (_ & Fc & Fd).
  apply IZR_lt in Fc, Fd.
  do 2 eexists. split; [reflexivity|]. split; [reflexivity|].
  assert (0 < w ^ 2) by (apply pow_lt; assumption).
  assert (0 < w' ^ 2) by (apply pow_lt; lra).
  assert (0 < IZR (nth (Z.to_nat i) d 0%Z) / 10 ^ 9) by (apply Rdiv_lt_0_compat; [assumption | lra]).
  assert (0 < IZR (nth (Z.to_nat i) c 0%Z) / 10 ^ 7) by (apply Rdiv_lt_0_compat; [assumption | lra]).
  set (D := IZR (nth (Z.to_nat i) d 0%Z) / 10 ^ 9) in *.
  assert (0 < D / w' ^ 2) by (apply Rdiv_lt_0_compat; assumption).
  split; [lra|]. apply Rplus_lt_compat_l. unfold Rdiv at 1 2.
  apply Rmult_lt_compat_l; [assumption|].
  apply Rinv_lt_contravar; [apply Rmult_lt_0_compat; assumption|]. nra.
Qed.

(** The missing third term. *)
Lemma cargille_misses_term : forall s c d e i w,
  dict_get s oil_tables = Ok (c, d, e) ->
  (0 <= i < Z.of_nat (length c))%Z -> 0 < w ->
  exists v, n_cargille i s w = Ok v /\
    v <> cauchy3 (IZR (nth (Z.to_nat i) c 0%Z) / 10 ^ 7)
                 (IZR (nth (Z.to_nat i) d 0%Z) / 10 ^ 9)
                 (IZR (nth (Z.to_nat i) e 0%Z) / 10 ^ 16) w.
Proof.
  intros s c d e i w H Hi Hw. rewrite (cargille_value s c d e i w H Hi).
  eexists. split; [reflexivity|]. unfold cauchy3.
  destruct (table_facts _ _ _ _ H) as (L1 & L2 & F & _).
  destruct (F (Z.to_nat i) ltac:(lia)) as (Fe & _ & _).
  assert (0 < w ^ 4) by (apply pow_lt; assumption).
  intros K.
  assert (Z0 : IZR (nth (Z.to_nat i) e 0%Z) / 10 ^ 16 / w ^ 4 = 0) by lra.
  apply Fe. apply eq_IZR.
  assert (IZR (nth (Z.to_nat i) e 0%Z) =
          (IZR (nth (Z.to_nat i) e 0%Z) / 10 ^ 16 / w ^ 4) * (10 ^ 16 * w ^ 4)) by (field; lra).
  rewrite H1, Z0. ring.
Qed.

Lemma ordered_step : forall c d i, ordered c d = true -> length d = length c ->
  (S i < length c)%nat ->
  (0 < 16 * 100 * (nth (S i) c 0 - nth i c 0) + 25 * (nth (S i) d 0 - nth i d 0) /\
   0 < 4 * 100 * (nth (S i) c 0 - nth i c 0) + 25 * (nth (S i) d 0 - nth i d 0))%Z.
Proof.
  induction c as [|c0 c IH]; intros d i H L Hi; [cbn in Hi; lia|].
  destruct c as [|c1 c]; [cbn in Hi; lia|].
  destruct d as [|d0 [|d1 d]]; [discriminate|discriminate|].
  cbn [ordered] in H.
  apply andb_prop in H. destruct H as [H1 H2].
  apply andb_prop in H1. destruct H1 as [H0 H1].
  apply Z.ltb_lt in H0, H1.
  destruct i as [|i]; [cbn [nth]; lia|].
  apply (IH (d1 :: d) i H2); cbn in *; lia.
Qed.

Lemma cargille_step : forall s c d e i w,
  dict_get s oil_tables = Ok (c, d, e) -> (S i < length c)%nat ->
  0.4 <= w <= 0.8 ->
  IZR (nth i c 0%Z) / 10 ^ 7 + (IZR (nth i d 0%Z) / 10 ^ 9) / w ^ 2
  < IZR (nth (S i) c 0%Z) / 10 ^ 7 + (IZR (nth (S i) d 0%Z) / 10 ^ 9) / w ^ 2.
Proof.
  intros s c d e i w H Hi Hw.
  destruct (table_facts _ _ _ _ H) as (L1 & L2 & _ & O).
  destruct (ordered_step c d i O L1 Hi) as [A B].
  apply IZR_lt in A, B. rewrite !plus_IZR, !mult_IZR, !minus_IZR in A, B.
  set (x := IZR (nth i c 0%Z)) in *. set (x' := IZR (nth (S i) c 0%Z)) in *.
  set (y := IZR (nth i d 0%Z)) in *. set (y' := IZR (nth (S i) d 0%Z)) in *.
  assert (W : 25 / 16 <= / w ^ 2 <= 25 / 4).
  { assert (0 < w ^ 2) by (apply pow_lt; lra).
    split; apply (Rmult_le_reg_r (w ^ 2)); try assumption; rewrite Rinv_l by lra; nra. }
  unfold Rdiv. set (t := / w ^ 2) in *. clearbody t x x' y y'.
  assert (0 < 100 * (x' - x) + t * (y' - y)).
  { assert (P1 : 0 <= t - 25 / 16) by lra. assert (P2 : 0 <= 25 / 4 - t) by lra.
    assert (A' : 0 < 100 * (x' - x) + 25 / 16 * (y' - y)) by lra.
    assert (B' : 0 < 100 * (x' - x) + 25 / 4 * (y' - y)) by lra.
    pose proof (Rmult_le_pos _ _ P2 (Rlt_le _ _ A')).
    pose proof (Rmult_le_pos _ _ P1 (Rlt_le _ _ B')).
    destruct (Rle_lt_dec t 3).
    - assert (0 < (25 / 4 - t) * (100 * (x' - x) + 25 / 16 * (y' - y)))
        by (apply Rmult_lt_0_compat; lra). lra.
    - assert (0 < (t - 25 / 16) * (100 * (x' - x) + 25 / 4 * (y' - y)))
        by (apply Rmult_lt_0_compat; lra). lra. }
  assert (E : x' * / 10 ^ 7 + y' * / 10 ^ 9 * t - (x * / 10 ^ 7 + y * / 10 ^ 9 * t)
      = (100 * (x' - x) + t * (y' - y)) / 10 ^ 9) by field.
  assert (0 < (100 * (x' - x) + t * (y' - y)) / 10 ^ 9) by (apply Rdiv_lt_0_compat; [assumption | lra]).
  lra.
Qed.

Lemma cargille_ordered : forall s c d e i j w,
  dict_get s oil_tables = Ok (c, d, e) ->
  (0 <= i)%Z -> (i < j)%Z -> (j < Z.of_nat (length c))%Z -> 0.4 <= w <= 0.8 ->
  exists v v', n_cargille i s w = Ok v /\ n_cargille j s w = Ok v' /\ v < v'.
Proof.
  intros s c d e i j w H Hi Hij Hj Hw.
  rewrite (cargille_value s c d e i w H) by lia.
  rewrite (cargille_value s c d e j w H) by lia.
  do 2 eexists. split; [reflexivity|]. split; [reflexivity|].
  assert (G : forall m k, (k + S m < length c)%nat ->
    IZR (nth k c 0%Z) / 10 ^ 7 + (IZR (nth k d 0%Z) / 10 ^ 9) / w ^ 2
    < IZR (nth (k + S m) c 0%Z) / 10 ^ 7 + (IZR (nth (k + S m) d 0%Z) / 10 ^ 9) / w ^ 2).
  { induction m as [|m IH]; intros k Hk.
    - replace (k + 1)%nat with (S k) in * by lia. eapply cargille_step; eassumption.
    - eapply Rlt_trans; [apply (IH k); lia|].
      replace (k + S (S m))%nat with (S (k + S m)) in * by lia.
      eapply cargille_step; eassumption. }
  specialize (G (Z.to_nat j - Z.to_nat i - 1)%nat (Z.to_nat i)).
  replace (Z.to_nat i + S (Z.to_nat j - Z.to_nat i - 1))%nat with (Z.to_nat j) in G by lia.
  apply G. lia.
Qed.
