(** Sums over even grids tend to integrals, for C169. *)
From Coq Require Import Lra Lia Psatz Reals List.
From Verif Require Import Num Spec Spec_scatter Spec_scat Spec_diffuse M_montecarlo L_num L_trapezoid L_sampling L_diffuse.
From Coquelicot Require Import Coquelicot.
Import ListNotations.
Open Scope R_scope.

(** Left and right sums over the points of a grid. *)
Fixpoint lsum (f : R -> R) (g : list R) : R :=
  match g with a :: ((b :: _) as t) => (b - a) * f a + lsum f t | _ => 0 end.
Fixpoint rsum (f : R -> R) (g : list R) : R :=
  match g with a :: ((b :: _) as t) => (b - a) * f b + rsum f t | _ => 0 end.
Lemma trap_lr f g : trap_int f g = (lsum f g + rsum f g) / 2.
Proof.
  induction g as [|a [|b t] IH]; cbn [trap_int lsum rsum]; try lra. change (trap_int f (b :: t)) with (trap_int f (b :: t)) in *.
  cbn [trap_int lsum rsum] in IH. rewrite IH. field.
Qed.
Lemma riemann_l (f : R -> R) g : Riemann_sum f (SF_seq_f2 (fun x _ => x) g) = lsum f g.
Proof.
  induction g as [|a [|b t] IH]; [reflexivity|reflexivity|].
  rewrite SF_cons_f2 by (cbn; lia). rewrite Riemann_sum_cons, IH. reflexivity.
Qed.
Lemma riemann_r (f : R -> R) g : Riemann_sum f (SF_seq_f2 (fun _ y => y) g) = rsum f g.
Proof.
  induction g as [|a [|b t] IH]; [reflexivity|reflexivity|].
  rewrite SF_cons_f2 by (cbn; lia). rewrite Riemann_sum_cons, IH. reflexivity.
Qed.
Lemma iota_seq m : forall a, seq.iota a m = seq a m.
Proof. induction m as [|m IH]; intros a; cbn; [reflexivity|now rewrite IH]. Qed.
Lemma unif_grid a b n : unif_part a b n = linspace a b (S (S n)).
Proof.
  unfold unif_part, seq.mkseq. rewrite iota_seq. unfold linspace.
  replace (INR (S (S n) - 1)) with (INR n + 1) by (rewrite <- S_INR; f_equal; lia).
  assert (Hn : INR n + 1 <> 0) by (pose proof (pos_INR n); lra).
  transitivity (map (fun i => a + INR i * (b - a) / (INR n + 1)) (seq 0 (S (S n)))).
  - generalize (seq 0 (S (S n))). intros l. induction l as [|x l IH]; [reflexivity|]. cbn [map]. rewrite <- IH. reflexivity.
  - apply map_ext. intros i. field. exact Hn.
Qed.
Section Lim.
Variables (f : R -> R) (a b v : R).
Hypothesis (Hab : a < b) (Hf : is_RInt f a b v).
Lemma tagged_lim (tag : R -> R -> R) : (forall x y, x <= y -> x <= tag x y <= y) ->
  forall eps, 0 < eps -> exists N, forall n, (N <= n)%nat -> Rabs (Riemann_sum f (SF_seq_f2 tag (linspace a b n)) - v) < eps.
Proof.
  intros Ht eps He. pose proof (proj1 (filterlim_locally _ v) Hf (mkposreal eps He)) as [del Hd]. cbn [pos] in Hd.
  assert (X : 0 <= (b - a) / del) by (apply Rmult_le_pos; [lra|left; apply Rinv_0_lt_compat, (cond_pos del)]).
  destruct (nfloor_ex _ X) as [k Hk]. exists (S (S k)). intros n Hn. destruct n as [|[|n]]; [lia|lia|].
  rewrite <- unif_grid. destruct (Riemann_fine_unif_part tag a b n Ht ltac:(lra)) as (S1 & S2 & S3 & S4).
  pose proof (cond_pos del) as Hp. pose proof (pos_INR n) as Hn0.
  assert (Q : seq_step (SF_lx (SF_seq_f2 tag (unif_part a b n))) < del).
  { apply (Rle_lt_trans _ _ _ S1). assert (INR k <= INR n) by (apply le_INR; lia).
    apply (Rmult_lt_reg_r (INR n + 1)); [lra|]. unfold Rdiv. rewrite Rmult_assoc, Rinv_l, Rmult_1_r by lra.
    assert (Y : (b - a) / del * del = b - a) by (field; lra). nra. }
  specialize (Hd _ Q). rewrite (Rmin_left a b), (Rmax_right a b) in Hd by lra. specialize (Hd (conj S2 (conj S3 S4))).
  rewrite sign_eq_1 in Hd by lra. unfold ball in Hd. cbn in Hd. unfold AbsRing_ball, abs, minus, plus, opp, scal in Hd. cbn in Hd. unfold mult in Hd. cbn in Hd.
  rewrite Rmult_1_l in Hd. exact Hd.
Qed.
Lemma lsum_lim eps : 0 < eps -> exists N, forall n, (N <= n)%nat -> Rabs (lsum f (linspace a b n) - v) < eps.
Proof.
  intros He. destruct (tagged_lim (fun x _ => x) ltac:(intros; lra) eps He) as [N H]. exists N. intros n Hn. rewrite <- riemann_l. now apply H.
Qed.
Lemma rsum_lim eps : 0 < eps -> exists N, forall n, (N <= n)%nat -> Rabs (rsum f (linspace a b n) - v) < eps.
Proof.
  intros He. destruct (tagged_lim (fun _ y => y) ltac:(intros; lra) eps He) as [N H]. exists N. intros n Hn. rewrite <- riemann_r. now apply H.
Qed.
Lemma trap_lim eps : 0 < eps -> exists N, forall n, (N <= n)%nat -> Rabs (trap_int f (linspace a b n) - v) < eps.
Proof.
  intros He. destruct (lsum_lim eps He) as [N1 H1]. destruct (rsum_lim eps He) as [N2 H2]. exists (N1 + N2)%nat. intros n Hn.
  rewrite trap_lr. specialize (H1 n ltac:(lia)). specialize (H2 n ltac:(lia)). apply Rabs_def2 in H1, H2. apply Rabs_def1; lra.
Qed.
(** The plain sum over all points, if the function vanishes at the end. *)
Lemma lsum_total n : f b = 0 -> (1 < n)%nat -> lsum f (linspace a b n) = (b - a) / INR (n - 1) * total (map f (linspace a b n)).
Proof.
  intros Hb Hn. destruct n as [|[|n]]; [lia|lia|]. clear Hn. unfold linspace. set (h := (b - a) / INR (S (S n) - 1)).
  assert (E : forall m s, lsum f (map (fun i => a + INR i * h) (seq s (S m))) = h * (total (map f (map (fun i => a + INR i * h) (seq s (S m)))) - f (a + INR (s + m) * h))).
  { induction m as [|m IH]; intros s.
    - cbn [seq map lsum total]. rewrite Nat.add_0_r. ring.
    - change (seq s (S (S m))) with (s :: seq (S s) (S m)). cbn [map]. specialize (IH (S s)).
      change (seq (S s) (S m)) with (S s :: seq (S (S s)) m) in *. cbn [map lsum total] in *. rewrite IH.
      replace (S s + m)%nat with (s + S m)%nat by lia. rewrite (S_INR s). ring. }
  rewrite E. replace (f (a + INR (0 + S n) * h)) with 0; [ring|]. rewrite <- Hb. f_equal. unfold h. replace (S (S n) - 1)%nat with (0 + S n)%nat by lia.
  field. apply not_0_INR. lia.
Qed.
End Lim.
