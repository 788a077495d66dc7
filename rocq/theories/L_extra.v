(** Lemmas about M_extra. *)
From Verif Require Export Num Spec Spec_scat M_extra L_num L_montecarlo L_montecarlo2 L_sizes L_trapezoid L_sampling.
From Coq Require Import Lia Lra ZArith.
From Coquelicot Require Import Complex.
Open Scope R_scope.

Lemma cis_add a b : cis (a + b) = Cmult (cis a) (cis b).
Proof. unfold cis, Cmult; cbn. rewrite cos_plus, sin_plus. f_equal; ring. Qed.
Lemma cis_0 : cis 0 = RtoC 1.
Proof. unfold cis, RtoC. now rewrite cos_0, sin_0. Qed.
Lemma cis_period (x : R) (k : nat) : cis (x + 2 * INR k * PI) = cis x.
Proof. unfold cis. now rewrite cos_period, sin_period. Qed.
Lemma cis_turns (k : nat) : cis (2 * INR k * PI) = RtoC 1.
Proof. rewrite <- (Rplus_0_l (2 * INR k * PI)), cis_period. apply cis_0. Qed.

Definition Cs (n : nat) (f : nat -> C) : C := Csum (map f (seq 0 n)).

Lemma Csum_app a b : Csum (a ++ b) = Cplus (Csum a) (Csum b).
Proof.
  induction a as [|x a IH]; cbn [app Csum fold_right].
  - symmetry. apply Cplus_0_l.
  - unfold Csum in IH. rewrite IH. fold (Csum a) (Csum b). ring.
Qed.
Lemma Cs_S n f : Cs (S n) f = Cplus (Cs n f) (f n).
Proof.
  unfold Cs. rewrite seq_S, map_app, Csum_app. cbn. ring.
Qed.
Lemma Cs_ext n f g : (forall i, (i < n)%nat -> f i = g i) -> Cs n f = Cs n g.
Proof.
  intros H. unfold Cs. f_equal. apply map_ext_in. intros i Hi. apply in_seq in Hi. apply H. lia.
Qed.
Lemma Cs_scal n a f : Cs n (fun i => Cmult a (f i)) = Cmult a (Cs n f).
Proof.
  induction n as [|n IH]; [cbn; ring|]. rewrite !Cs_S, IH. ring.
Qed.
Lemma Cs_plus n f g : Cs n (fun i => Cplus (f i) (g i)) = Cplus (Cs n f) (Cs n g).
Proof.
  induction n as [|n IH]; [cbn; ring|]. rewrite !Cs_S, IH. ring.
Qed.
Lemma Cs_zero n f : (forall i, (i < n)%nat -> f i = RtoC 0) -> Cs n f = RtoC 0.
Proof.
  intros H. induction n as [|n IH]; [reflexivity|]. rewrite Cs_S, IH, H by (auto with arith). ring.
Qed.
Lemma Cs_swap n m (f : nat -> nat -> C) :
  Cs n (fun i => Cs m (fun j => f i j)) = Cs m (fun j => Cs n (fun i => f i j)).
Proof.
  induction n as [|n IH].
  - symmetry. apply Cs_zero. reflexivity.
  - rewrite Cs_S, IH, <- Cs_plus. apply Cs_ext. intros j _. now rewrite Cs_S.
Qed.
Lemma Cs_single n f b : (b < n)%nat -> (forall i, (i < n)%nat -> i <> b -> f i = RtoC 0) -> Cs n f = f b.
Proof.
  intros Hb H. induction n as [|n IH]; [lia|]. rewrite Cs_S. destruct (Nat.eq_dec b n) as [->|Hne].
  - rewrite Cs_zero; [ring|]. intros i Hi. apply H; lia.
  - rewrite IH by (intros; try apply H; lia). rewrite (H n) by lia. ring.
Qed.
Lemma Cs_const n a : Cs n (fun _ => a) = Cmult (RtoC (INR n)) a.
Proof.
  induction n as [|n IH]; [cbn; ring|]. rewrite Cs_S, IH, S_INR, RtoC_plus. ring.
Qed.
Lemma Cs_real n f : Cs n (fun i => RtoC (f i)) = RtoC (Rsum (map f (seq 0 n))).
Proof.
  induction n as [|n IH]; [reflexivity|]. rewrite Cs_S, IH, seq_S, map_app.
  change (Rsum (map f (seq 0 n) ++ map f [(0 + n)%nat])) with (total (map f (seq 0 n) ++ map f [(0 + n)%nat])).
  rewrite total_app. cbn [map Nat.add]. unfold total at 2. cbn [fold_right]. rewrite Rplus_0_r. now rewrite RtoC_plus.
Qed.

Lemma geometric n t : Cmult (Cs n (fun k => cis (INR k * t))) (Cminus (RtoC 1) (cis t)) = Cminus (RtoC 1) (cis (INR n * t)).
Proof.
  induction n as [|n IH].
  - cbn [INR]. rewrite Rmult_0_l, cis_0. cbn. ring.
  - rewrite Cs_S, S_INR. replace ((INR n + 1) * t) with (INR n * t + t) by ring. rewrite cis_add.
    transitivity (Cplus (Cmult (Cs n (fun k => cis (INR k * t))) (Cminus (RtoC 1) (cis t)))
                        (Cmult (cis (INR n * t)) (Cminus (RtoC 1) (cis t)))); [ring|]. rewrite IH. ring.
Qed.

Lemma cis_not_one t : - (2 * PI) < t < 2 * PI -> t <> 0 -> Cminus (RtoC 1) (cis t) <> RtoC 0.
Proof.
  intros Ht Hn E. assert (Hc : cos t = 1) by (apply (f_equal fst) in E; cbn in E; lra).
  assert (Hs : sin (t / 2) = 0).
  { replace t with (2 * (t / 2)) in Hc by field. rewrite cos_2a_sin in Hc.
    assert (sin (t / 2) * sin (t / 2) = 0) by lra. now apply Rmult_integral in H as [H|H]. }
  destruct (Rtotal_order t 0) as [H|[H|H]]; [|contradiction|].
  - pose proof (sin_gt_0 (- (t / 2)) ltac:(lra) ltac:(lra)). rewrite sin_neg in H0. lra.
  - pose proof (sin_gt_0 (t / 2) ltac:(lra) ltac:(lra)). lra.
Qed.

(** Orthogonality of the roots of unity. *)
Lemma orthogonal n i r : (i < n)%nat -> (r < n)%nat -> i <> r ->
  Cs n (fun k => cis (INR k * (2 * PI * (INR i - INR r) / INR n))) = RtoC 0.
Proof.
  intros Hi Hr Hne. set (t := 2 * PI * (INR i - INR r) / INR n).
  assert (Hn : 0 < INR n) by (apply lt_0_INR; lia).
  pose proof (geometric n t) as G.
  assert (Ht : cis (INR n * t) = RtoC 1).
  { unfold t. replace (INR n * (2 * PI * (INR i - INR r) / INR n)) with (2 * INR i * PI - 2 * INR r * PI) by (field; lra).
    rewrite <- (cis_period _ r). replace (2 * INR i * PI - 2 * INR r * PI + 2 * INR r * PI) with (2 * INR i * PI) by ring.
    apply cis_turns. }
  rewrite Ht in G. replace (Cminus (RtoC 1) (RtoC 1)) with (RtoC 0) in G by ring.
  assert (Hz : Cminus (RtoC 1) (cis t) <> RtoC 0).
  { apply lt_INR in Hi. apply lt_INR in Hr. pose proof (pos_INR i). pose proof (pos_INR r). pose proof PI_RGT_0.
    assert (Hb : -1 < (INR i - INR r) / INR n < 1).
    { split; apply (Rmult_lt_reg_r (INR n)); try assumption; unfold Rdiv; rewrite Rmult_assoc, Rinv_l; lra. }
    apply cis_not_one.
    - unfold t. replace (2 * PI * (INR i - INR r) / INR n) with (2 * PI * ((INR i - INR r) / INR n)) by (field; lra). nra.
    - unfold t. intros E. apply Hne, INR_eq.
      assert (E2 : 2 * PI * (INR i - INR r) = 0).
      { replace (2 * PI * (INR i - INR r)) with (2 * PI * (INR i - INR r) / INR n * INR n) by (field; lra). rewrite E. ring. }
      nra. }
  transitivity (Cmult (Cmult (Cs n (fun k => cis (INR k * t))) (Cminus (RtoC 1) (cis t))) (Cinv (Cminus (RtoC 1) (cis t)))).
  - rewrite <- Cmult_assoc, Cinv_r by exact Hz. ring.
  - rewrite G. ring.
Qed.

Lemma orthogonal_mod n i m : (i < n)%nat ->
  Cs n (fun k => cis (INR k * (2 * PI * (INR i - INR m) / INR n)))
  = if Nat.eqb (m mod n) i then RtoC (INR n) else RtoC 0.
Proof.
  intros Hi. assert (Hn : 0 < INR n) by (apply lt_0_INR; lia).
  set (r := (m mod n)%nat). assert (Hr : (r < n)%nat) by (apply Nat.mod_upper_bound; lia).
  assert (Em : m = (n * (m / n) + r)%nat) by (apply Nat.div_mod; lia).
  set (q := (m / n)%nat) in *.
  transitivity (Cs n (fun k => cis (INR k * (2 * PI * (INR i - INR r) / INR n)))).
  - apply Cs_ext. intros k _. rewrite Em, plus_INR, mult_INR.
    rewrite <- (cis_period _ (k * q)). f_equal. rewrite mult_INR. field. lra.
  - destruct (Nat.eqb_spec r i) as [->|Hne].
    + rewrite (Cs_ext _ _ (fun _ => RtoC 1)).
      * rewrite Cs_const. ring.
      * intros k _. replace (INR k * (2 * PI * (INR i - INR i) / INR n)) with 0 by (field; lra). apply cis_0.
    + apply orthogonal; auto.
Qed.

Lemma nth_map_seq0 {A} (f : nat -> A) n i d : (i < n)%nat -> nth i (map f (seq 0 n)) d = f i.
Proof.
  intros H. rewrite (nth_indep _ d (f 0%nat)) by (rewrite map_length, seq_length; exact H).
  rewrite map_nth, seq_nth by exact H. reflexivity.
Qed.
Lemma map2_seq {A B D} (h : A -> B -> D) f g l : map2 h (map f l) (map g l) = map (fun k : nat => h (f k) (g k)) l.
Proof. induction l as [|k l IH]; [reflexivity|]. cbn. now rewrite IH. Qed.

Definition back (n i j : nat) : nat := ((i + n - j) mod n)%nat.

Lemma back_unique n i a b : (i < n)%nat -> (a < n)%nat -> (b < n)%nat ->
  ((a + b) mod n = i)%nat <-> b = back n i a.
Proof.
  intros Hi Ha Hb. unfold back. split.
  - intros E. destruct (Nat.lt_ge_cases (a + b) n) as [H|H].
    + rewrite Nat.mod_small in E by exact H. subst i.
      replace (a + b + n - a)%nat with (b + 1 * n)%nat by lia. rewrite Nat.mod_add by lia. now rewrite Nat.mod_small.
    + replace (a + b)%nat with ((a + b - n) + 1 * n)%nat in E by lia. rewrite Nat.mod_add in E by lia.
      rewrite Nat.mod_small in E by lia. subst i. replace (a + b - n + n - a)%nat with b by lia. now rewrite Nat.mod_small.
  - intros ->. rewrite Nat.add_mod_idemp_r by lia. replace (a + (i + n - a))%nat with (i + 1 * n)%nat by lia.
    rewrite Nat.mod_add by lia. now rewrite Nat.mod_small.
Qed.

Lemma fft_value s k : (k < length s)%nat ->
  nth k (fft s) (RtoC 0) = Cs (length s) (fun j => Cmult (nth j s (RtoC 0)) (cis (- (2 * PI * INR (j * k) / INR (length s))))).
Proof. intros H. unfold fft. now rewrite nth_map_seq0. Qed.

Lemma conv_entry n (s g : nat -> R) i : (i < n)%nat ->
  let F k := Cs n (fun j => Cmult (RtoC (s j)) (cis (- (2 * PI * INR (j * k) / INR n)))) in
  let G k := Cs n (fun j => Cmult (RtoC (g j)) (cis (- (2 * PI * INR (j * k) / INR n)))) in
  Cdiv (Cs n (fun k => Cmult (Cmult (F k) (G k)) (cis (2 * PI * INR (k * i) / INR n)))) (RtoC (INR n))
  = RtoC (Rsum (map (fun j => s j * g (back n i j)) (seq 0 n))).
Proof.
  intros Hi F G. assert (Hn : 0 < INR n) by (apply lt_0_INR; lia).
  assert (HnC : RtoC (INR n) <> RtoC 0) by (intros E; apply RtoC_inj in E; lra).
  assert (E : Cs n (fun k => Cmult (Cmult (F k) (G k)) (cis (2 * PI * INR (k * i) / INR n)))
    = Cs n (fun a => Cs n (fun b => Cmult (RtoC (s a * g b)) (if Nat.eqb ((a + b) mod n) i then RtoC (INR n) else RtoC 0)))).
  { transitivity (Cs n (fun k => Cs n (fun a => Cs n (fun b =>
       Cmult (RtoC (s a * g b)) (cis (INR k * (2 * PI * (INR i - INR (a + b)) / INR n))))))).
    - apply Cs_ext. intros k _. unfold F. rewrite <- Cmult_assoc, Cmult_comm, <- Cs_scal. apply Cs_ext. intros a _.
      unfold G. 
      transitivity (Cmult (Cmult (Cmult (RtoC (s a)) (cis (- (2 * PI * INR (a * k) / INR n)))) (cis (2 * PI * INR (k * i) / INR n)))
        (Cs n (fun j => Cmult (RtoC (g j)) (cis (- (2 * PI * INR (j * k) / INR n)))))); [ring|].
      rewrite <- Cs_scal. apply Cs_ext. intros b _.
      replace (INR k * (2 * PI * (INR i - INR (a + b)) / INR n))
        with (- (2 * PI * INR (a * k) / INR n) + (- (2 * PI * INR (b * k) / INR n) + 2 * PI * INR (k * i) / INR n))
        by (rewrite !mult_INR, plus_INR; field; lra).
      rewrite !cis_add, RtoC_mult. ring.
    - rewrite Cs_swap. apply Cs_ext. intros a _. rewrite Cs_swap. apply Cs_ext. intros b _.
      rewrite Cs_scal. f_equal. now apply orthogonal_mod. }
  rewrite E. rewrite (Cs_ext n _ (fun a => Cmult (RtoC (INR n)) (RtoC (s a * g (back n i a))))).
  - rewrite Cs_scal, Cs_real. unfold Cdiv. rewrite Cmult_comm, Cmult_assoc, Cinv_l by exact HnC. ring.
  - intros a Ha. rewrite (Cs_single n _ (back n i a)).
    + rewrite (proj2 (Nat.eqb_eq _ _)); [ring|]. apply back_unique; try assumption; try reflexivity.
      apply Nat.mod_upper_bound; lia.
    + apply Nat.mod_upper_bound; lia.
    + intros b Hb Hne. destruct (Nat.eqb_spec ((a + b) mod n) i) as [H|H]; [|ring].
      apply back_unique in H; try assumption. contradiction.
Qed.

Lemma fft_seq s : fft (map RtoC s) =
  map (fun k => Cs (length s) (fun j => Cmult (RtoC (nth j s 0)) (cis (- (2 * PI * INR (j * k) / INR (length s)))))) (seq 0 (length s)).
Proof.
  unfold fft. rewrite map_length. apply map_ext. intros k. apply Cs_ext. intros j _. f_equal.
  change (RtoC 0) with (RtoC 0). apply map_nth.
Qed.

Lemma conv_circ_value s g : length s = length g -> s <> [] ->
  conv_circ s g = Ok (map (fun i => Rsum (map (fun j => nth j s 0 * nth (back (length s) i j) g 0) (seq 0 (length s)))) (seq 0 (length s))).
Proof.
  intros El Hne. unfold conv_circ. rewrite <- El. rewrite !fft_seq, <- El.
  set (n := length s). assert (Hn : (0 < n)%nat) by (unfold n; destruct s; [contradiction|cbn; lia]).
  destruct n as [|n'] eqn:En; [lia|]. rewrite <- En in *. rewrite Nat.eqb_refl. f_equal.
  rewrite map2_seq. unfold ifft. rewrite !map_length, seq_length. rewrite map_map. apply map_ext_in.
  intros i Hi. apply in_seq in Hi.
  set (F := fun k => Cs n (fun j => Cmult (RtoC (nth j s 0)) (cis (- (2 * PI * INR (j * k) / INR n))))).
  set (G := fun k => Cs n (fun j => Cmult (RtoC (nth j g 0)) (cis (- (2 * PI * INR (j * k) / INR n))))).
  match goal with |- fst (Cdiv ?X _) = _ => assert (EX : X = Cs n (fun k => Cmult (Cmult (F k) (G k)) (cis (2 * PI * INR (k * i) / INR n)))) end.
  { apply Cs_ext. intros k Hk. f_equal. rewrite nth_map_seq0 by exact Hk. reflexivity. }
  rewrite EX. unfold F, G.
  rewrite (conv_entry n (fun j => nth j s 0) (fun j => nth j g 0) i) by lia. reflexivity.
Qed.

(** ** argmin *)
Lemma argmin_from_spec l : forall best m i,
  let r := argmin_from best m i l in
  (r = best /\ (forall j, (j < length l)%nat -> m <= nth j l 0))
  \/ (exists j, r = (i + j)%nat /\ (j < length l)%nat /\ nth j l 0 < m
       /\ (forall k, (k < length l)%nat -> nth j l 0 <= nth k l 0)
       /\ (forall k, (k < j)%nat -> nth j l 0 < nth k l 0)).
Proof.
  induction l as [|x l IH]; intros best m i r; unfold r; cbn [argmin_from].
  - left. split; [reflexivity|]. cbn. lia.
  - destruct (Rltb x m) eqn:E.
    + apply Rltb_true in E. right. destruct (IH i x (S i)) as [[-> H]|(j & -> & Hj & Hx & H1 & H2)].
      * exists 0%nat. split; [lia|]. split; [cbn; lia|]. split; [exact E|]. split; [|lia].
        intros [|k] Hk; cbn [nth]; [lra|]. apply H. cbn in Hk. lia.
      * exists (S j). split; [lia|]. split; [cbn; lia|]. cbn [nth]. split; [lra|]. split.
        -- intros [|k] Hk; cbn [nth]; [lra|]. apply H1. cbn in Hk. lia.
        -- intros [|k] Hk; cbn [nth]; [lra|]. apply H2. lia.
    + apply Rltb_false in E. destruct (IH best m (S i)) as [[-> H]|(j & -> & Hj & Hx & H1 & H2)].
      * left. split; [reflexivity|]. intros [|k] Hk; cbn [nth]; [lra|]. apply H. cbn in Hk. lia.
      * right. exists (S j). split; [lia|]. split; [cbn; lia|]. cbn [nth]. split; [lra|]. split.
        -- intros [|k] Hk; cbn [nth]; [lra|]. apply H1. cbn in Hk. lia.
        -- intros [|k] Hk; cbn [nth]; [lra|]. apply H2. lia.
Qed.
Lemma argmin_spec l : l <> [] ->
  (argmin l < length l)%nat
  /\ (forall k, (k < length l)%nat -> nth (argmin l) l 0 <= nth k l 0)
  /\ (forall k, (k < argmin l)%nat -> nth (argmin l) l 0 < nth k l 0).
Proof.
  destruct l as [|x l]; [contradiction|]. intros _. cbn [argmin].
  destruct (argmin_from_spec l 0 x 1) as [[-> H]|(j & -> & Hj & Hx & H1 & H2)].
  - split; [cbn; lia|]. split; [|lia]. intros [|k] Hk; cbn [nth]; [lra|]. apply H. cbn in Hk. lia.
  - cbn [Nat.add nth length]. split; [lia|]. split.
    + intros [|k] Hk; [lra|]. apply H1. lia.
    + intros [|k] Hk; [lra|]. apply H2. lia.
Qed.

(** ** The field factor *)
Lemma Cmod_cis t : Cmod (cis t) = 1.
Proof.
  unfold Cmod, cis. cbn [fst snd]. replace (cos t ^ 2 + sin t ^ 2) with 1 by (pose proof (sin2_cos2 t) as H; unfold Rsqr in H; nra).
  apply sqrt_1.
Qed.
Lemma Cmod_Csum_le (f : R -> C) l : (forall x, Cmod (f x) <= 1) -> Cmod (Csum (map f l)) <= INR (length l).
Proof.
  intros H. induction l as [|x l IH]; [cbn [map Csum fold_right length INR]; rewrite Cmod_0; lra|].
  cbn [map Csum fold_right]. fold (Csum (map f l)). cbn [length]. rewrite S_INR.
  pose proof (Cmod_triangle (f x) (Csum (map f l))). specialize (H x). lra.
Qed.

Lemma total_nth l : total (map (fun i => nth i l 0) (seq 0 (length l))) = total l.
Proof.
  induction l as [|x l IH]; [reflexivity|]. cbn [length seq map total nth]. rewrite <- seq_shift, map_map. cbn [nth]. now rewrite IH.
Qed.
Lemma list_nth_seq (l : list R) : map (fun i => nth i l 0) (seq 0 (length l)) = l.
Proof.
  induction l as [|x l IH]; [reflexivity|]. cbn [length seq map nth]. rewrite <- seq_shift, map_map. cbn [nth]. now rewrite IH.
Qed.

Lemma sample_all_picks g r_d us : Forall (fun x => 0 <= x) g -> 0 < total g -> Forall (fun u => 0 <= u < 1) us ->
  exists rs, sample_all (map (fun x => ndiv x (Rsum g)) g) r_d us = Ok rs
    /\ Forall2 (fun u r => exists i, picks (fun i => nth i g 0) (length g) u i /\ r = nth i r_d 0) us rs.
Proof.
  intros Hg Ht Hu. assert (E : map (fun x => ndiv x (Rsum g)) g = normalise (map (fun i => nth i g 0) (seq 0 (length g)))).
  { rewrite list_nth_seq. unfold normalise. apply map_ext. intros x. reflexivity. }
  induction Hu as [|u us Hu1 Hu IH]; [exists []; split; [reflexivity|constructor]|].
  destruct IH as (rs & Ers & Hrs). cbn [sample_all]. rewrite Ers, E.
  destruct (choice_picks (fun i => nth i g 0) (length g) u) as (i & Ei & Hi).
  - intros i Hi. rewrite Forall_forall in Hg. apply Hg, nth_In, Hi.
  - now rewrite total_nth.
  - exact Hu1.
  - rewrite Ei. cbn [bind]. exists (nth i r_d 0 :: rs). split; [reflexivity|]. constructor; [|exact Hrs]. eauto.
Qed.
Lemma Forall2_len {A B} (P : A -> B -> Prop) l m : Forall2 P l m -> length l = length m.
Proof. induction 1; cbn; congruence. Qed.
Lemma map2_seq_R (f g : R -> R) l : map2 Rmult (map f l) (map g l) = map (fun r => f r * g r) l.
Proof. induction l as [|x l IH]; [reflexivity|]. cbn. now rewrite IH. Qed.
