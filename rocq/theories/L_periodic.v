(** Means over independent uniform phases do not change when every phase is
    shifted by an amount that depends on the earlier phases only. *)
From Coq Require Import Lra Lia Psatz Reals List ZArith.
From Verif Require Import Spec_mean L_mean.
From Coquelicot Require Import Coquelicot.
Open Scope R_scope.

Lemma periodic_Z (f : R -> R) : (forall x, f (x + 1) = f x) -> forall (z : Z) x, f (x + IZR z) = f x.
Proof.
  intros H z. pattern z. apply Z.peano_ind; clear z.
  - intros x. f_equal. ring.
  - intros z IH x. rewrite succ_IZR. replace (x + (IZR z + 1)) with ((x + IZR z) + 1) by ring. now rewrite H.
  - intros z IH x. unfold Z.pred. rewrite plus_IZR. rewrite <- (H (x + (IZR z + IZR (-1)))).
    replace (x + (IZR z + IZR (-1)) + 1) with (x + IZR z) by (cbn; ring). apply IH.
Qed.

Lemma shift_small (f : R -> R) b v : (forall x, f (x + 1) = f x) -> 0 <= b < 1 ->
  is_RInt f 0 1 v -> is_RInt (fun x => f (x + b)) 0 1 v.
Proof.
  intros Hp Hb H. assert (E : ex_RInt f 0 1) by (now exists v).
  destruct (ex_RInt_Chasles_1 f 0 b 1 ltac:(lra) E) as (A & HA).
  destruct (ex_RInt_Chasles_2 f 0 b 1 ltac:(lra) E) as (B & HB).
  assert (EV : v = plus A B) by (rewrite <- (is_RInt_unique _ _ _ _ H); apply (is_RInt_unique f), (is_RInt_Chasles f 0 b 1 A B HA HB)).
  assert (H1 : is_RInt (fun x => f (x + b)) 0 (1 - b) B).
  { assert (X : is_RInt f (1 * 0 + b) (1 * (1 - b) + b) B) by (replace (1 * 0 + b) with b by ring; replace (1 * (1 - b) + b) with 1 by ring; exact HB).
    apply is_RInt_comp_lin in X. revert X. apply is_RInt_ext. intros x _. unfold scal; cbn; unfold mult; cbn. replace (1 * x + b) with (x + b) by ring. ring. }
  assert (H2 : is_RInt (fun x => f (x + b)) (1 - b) 1 A).
  { assert (X : is_RInt f (1 * (1 - b) + (b - 1)) (1 * 1 + (b - 1)) A) by (replace (1 * (1 - b) + (b - 1)) with 0 by ring; replace (1 * 1 + (b - 1)) with b by ring; exact HA).
    apply is_RInt_comp_lin in X. revert X. apply is_RInt_ext. intros x _. unfold scal; cbn; unfold mult; cbn.
    rewrite <- (Hp (1 * x + (b - 1))). replace (1 * x + (b - 1) + 1) with (x + b) by ring. ring. }
  pose proof (is_RInt_Chasles _ _ _ _ _ _ H1 H2) as H3.
  assert (EV' : plus B A = v) by (rewrite EV; apply plus_comm).
  exact (eq_ind _ (fun w => is_RInt (fun x => f (x + b)) 0 1 w) H3 v EV').
Qed.

Lemma shift_periodic (f : R -> R) a v : (forall x, f (x + 1) = f x) ->
  is_RInt f 0 1 v -> is_RInt (fun x => f (x + a)) 0 1 v.
Proof.
  intros Hp H. destruct (archimed a) as (A1 & A2). set (z := (up a - 1)%Z).
  assert (Hz : IZR z <= a < IZR z + 1).
  { unfold z. rewrite minus_IZR. split; lra. }
  pose proof (shift_small f (a - IZR z) v Hp ltac:(lra) H) as X. revert X. apply is_RInt_ext. intros x _.
  replace (x + a) with ((x + (a - IZR z)) + IZR z) by ring. now rewrite periodic_Z.
Qed.

Definition dep (n : nat) (F : (nat -> R) -> R) : Prop := forall t t', (forall i, (i < n)%nat -> t i = t' i) -> F t = F t'.
Definition periodic (n : nat) (F : (nat -> R) -> R) : Prop := forall t k, (k < n)%nat -> F (upd t k (t k + 1)) = F t.
Definition causal (a : nat -> (nat -> R) -> R) : Prop := forall k t t', (forall i, (i < k)%nat -> t i = t' i) -> a k t = a k t'.
Definition shifted (a : nat -> (nat -> R) -> R) (t : nat -> R) : nat -> R := fun i => t i + a i t.

Lemma upd_same t k x : upd t k x k = x.
Proof. unfold upd. now rewrite Nat.eqb_refl. Qed.
Lemma upd_other t k x i : i <> k -> upd t k x i = t i.
Proof. intros H. unfold upd. destruct (Nat.eqb_spec i k); [contradiction|reflexivity]. Qed.

Lemma shifted_onto a : causal a -> forall n s, exists t, forall i, (i < n)%nat -> shifted a t i = s i.
Proof.
  intros Ha. induction n as [|n IH]; intros s; [exists s; intros; lia|].
  destruct (IH s) as (t & Ht). exists (upd t n (s n - a n t)). intros i Hi. unfold shifted.
  assert (E : forall j, (j <= n)%nat -> a j (upd t n (s n - a n t)) = a j t).
  { intros j Hj. apply Ha. intros q Hq. apply upd_other. lia. }
  rewrite E by lia. destruct (Nat.eq_dec i n) as [->|Hne].
  - rewrite upd_same. ring.
  - rewrite upd_other by exact Hne. apply Ht. lia.
Qed.

Lemma triangular n : forall F a m, dep n F -> periodic n F -> causal a ->
  is_mean n F m <-> is_mean n (fun t => F (shifted a t)) m.
Proof.
  induction n as [|n IH]; intros F a m HD HP Ha.
  - cbn. split; intros H t.
    + apply H.
    + rewrite <- (H t). apply HD. intros; lia.
  - assert (K : forall t x, F (shifted a (upd t n x)) = F (upd (shifted a t) n (x + a n t))).
    { intros t x. apply HD. intros i Hi. unfold shifted at 1.
      rewrite (Ha i (upd t n x) t) by (intros j Hj; apply upd_other; lia).
      destruct (Nat.eq_dec i n) as [->|Hne]; [now rewrite !upd_same|]. rewrite !upd_other by exact Hne. reflexivity. }
    assert (Q : forall s x, F (upd s n (x + 1)) = F (upd s n x)).
    { intros s x. rewrite <- (HP (upd s n x) n) by lia. rewrite upd_same. apply HD. intros i Hi.
      destruct (Nat.eq_dec i n) as [->|Hne]; [now rewrite !upd_same|]. now rewrite !upd_other by exact Hne. }
    assert (D : forall G : (nat -> R) -> R, (forall t, is_RInt (fun x => F (upd t n x)) 0 1 (G t)) -> dep n G /\ periodic n G).
    { intros G HG. assert (X : forall t t', (forall x, F (upd t n x) = F (upd t' n x)) -> G t = G t').
      { intros t t' E. rewrite <- (is_RInt_unique _ _ _ _ (HG t)), <- (is_RInt_unique _ _ _ _ (HG t')). apply RInt_ext. intros x _. apply E. }
      split.
      - intros t t' E. apply X. intros x. apply HD. intros i Hi. destruct (Nat.eq_dec i n) as [->|Hne]; [now rewrite !upd_same|].
        rewrite !upd_other by exact Hne. apply E. lia.
      - intros t k Hk. apply X. intros x. rewrite <- (HP (upd t n x) k) by lia. apply HD. intros i Hi.
        destruct (Nat.eq_dec i n) as [->|Hn].
        + rewrite upd_same, upd_other, upd_same by lia. reflexivity.
        + rewrite upd_other by exact Hn. destruct (Nat.eq_dec i k) as [->|Hk'].
          * rewrite !upd_same. now rewrite upd_other by lia.
          * rewrite !upd_other by assumption. reflexivity. }
    cbn [is_mean]. split; intros (G & HG & Hm).
    + destruct (D G HG) as (D1 & D2). exists (fun t => G (shifted a t)). split.
      * intros t. apply (is_RInt_ext (fun x => F (upd (shifted a t) n (x + a n t)))); [intros x _; now rewrite K|].
        apply (shift_periodic (fun x => F (upd (shifted a t) n x))); [apply Q|apply HG].
      * exact (proj1 (IH G a m D1 D2 Ha) Hm).
    + set (G0 := fun s => RInt (fun x => F (upd s n x)) 0 1).
      assert (V : forall t, is_RInt (fun x => F (upd (shifted a t) n x)) 0 1 (G t)).
      { intros t. pose proof (HG t) as X.
        apply (is_RInt_ext _ (fun x => F (upd (shifted a t) n (x + a n t)))) in X; [|intros x _; apply K].
        apply (shift_periodic (fun x => F (upd (shifted a t) n (x + a n t))) (- a n t)) in X.
        - revert X. apply is_RInt_ext. intros x _. f_equal. f_equal. ring.
        - intros x. replace (x + 1 + a n t) with ((x + a n t) + 1) by ring. apply Q. }
      assert (W : forall s, is_RInt (fun x => F (upd s n x)) 0 1 (G0 s)).
      { intros s. apply (RInt_correct (fun x => F (upd s n x))). destruct (shifted_onto a Ha n s) as (t & Ht). exists (G t).
        generalize (V t). apply is_RInt_ext. intros x _. apply HD. intros i Hi.
        destruct (Nat.eq_dec i n) as [->|Hne]; [now rewrite !upd_same|]. rewrite !upd_other by exact Hne. apply Ht. lia. }
      destruct (D G0 W) as (D1 & D2). exists G0. split; [exact W|].
      apply (IH G0 a m D1 D2 Ha). revert Hm. apply is_mean_ext. intros t. symmetry.
      unfold G0. apply (is_RInt_unique (fun x => F (upd (shifted a t) n x))), V.
Qed.
