(** Lemmas about the trapezoid rule and evenly spaced grids. *)
From Verif Require Import Num Spec Spec_scatter L_num M_montecarlo L_montecarlo2.
From Coq Require Import Lia Lra.
Open Scope R_scope.

Lemma ascending_tail a g : ascending (a :: g) -> ascending g.
Proof. intros H i Hi. apply (H (S i)). cbn. lia. Qed.

Lemma ascending_head a b g : ascending (a :: b :: g) -> a <= b.
Proof. intros H. apply (H 0%nat). cbn. lia. Qed.

Lemma trapezoid_map f g : trapezoid (map f g) g = trap_int f g.
Proof.
  induction g as [|a [|b g] IH]; [reflexivity|reflexivity|].
  change (trapezoid (map f (a :: b :: g)) (a :: b :: g))
    with ((b - a) * (f a + f b) / 2 + trapezoid (map f (b :: g)) (b :: g)).
  rewrite IH. cbn [trap_int]. lra.
Qed.

Lemma trapezoid_pts y x : length y = length x -> trapezoid y x = trap_pts (combine x y).
Proof.
  revert x. induction y as [|y0 [|y1 y] IH]; intros [|x0 [|x1 x]] H; cbn in H; try lia; try reflexivity.
  change (trapezoid (y0 :: y1 :: y) (x0 :: x1 :: x))
    with ((x1 - x0) * (y0 + y1) / 2 + trapezoid (y1 :: y) (x1 :: x)).
  rewrite IH by (cbn; lia). cbn. lra.
Qed.

Lemma trap_int_plus f h g : trap_int (fun t => f t + h t) g = trap_int f g + trap_int h g.
Proof. induction g as [|a [|b g] IH]; cbn [trap_int] in *; lra. Qed.

Lemma trap_int_scale c f g : trap_int (fun t => c * f t) g = c * trap_int f g.
Proof. induction g as [|a [|b g] IH]; cbn [trap_int] in *; lra. Qed.

Lemma trap_int_ext f h g : (forall t, In t g -> f t = h t) -> trap_int f g = trap_int h g.
Proof.
  induction g as [|a [|b g] IH]; intros H; [reflexivity|reflexivity|].
  change (trap_int f (a :: b :: g)) with ((b - a) * ((f a + f b) / 2) + trap_int f (b :: g)).
  change (trap_int h (a :: b :: g)) with ((b - a) * ((h a + h b) / 2) + trap_int h (b :: g)).
  rewrite IH by (intros; apply H; now right).
  rewrite (H a) by now left. rewrite (H b) by (right; now left). reflexivity.
Qed.

Lemma trap_int_le f h g : ascending g -> (forall t, In t g -> f t <= h t) ->
  trap_int f g <= trap_int h g.
Proof.
  induction g as [|a [|b g] IH]; intros Ha H; [cbn; lra|cbn; lra|].
  change (trap_int f (a :: b :: g)) with ((b - a) * ((f a + f b) / 2) + trap_int f (b :: g)).
  change (trap_int h (a :: b :: g)) with ((b - a) * ((h a + h b) / 2) + trap_int h (b :: g)).
  pose proof (ascending_head _ _ _ Ha).
  apply Rplus_le_compat.
  - apply Rmult_le_compat_l; [lra|].
    pose proof (H a (or_introl eq_refl)). pose proof (H b (or_intror (or_introl eq_refl))). lra.
  - apply IH; [exact (ascending_tail _ _ Ha)|]. intros t Ht. apply H. now right.
Qed.

Lemma trap_int_zero g : trap_int (fun _ => 0) g = 0.
Proof. induction g as [|a [|b g] IH]; cbn [trap_int] in *; lra. Qed.

Lemma trap_int_nonneg f g : ascending g -> (forall t, In t g -> 0 <= f t) -> 0 <= trap_int f g.
Proof. intros Ha H. rewrite <- (trap_int_zero g). now apply trap_int_le. Qed.

Lemma trap_int_flat f g c : (forall t, In t g -> t = c) -> trap_int f g = 0.
Proof.
  induction g as [|a [|b g] IH]; intros H; [reflexivity|reflexivity|].
  change (trap_int f (a :: b :: g)) with ((b - a) * ((f a + f b) / 2) + trap_int f (b :: g)).
  rewrite IH by (intros; apply H; now right).
  rewrite (H a (or_introl eq_refl)), (H b (or_intror (or_introl eq_refl))). lra.
Qed.

Lemma trap_int_split f g x h : trap_int f (g ++ x :: h) = trap_int f (g ++ [x]) + trap_int f (x :: h).
Proof.
  induction g as [|a [|b g] IH].
  - cbn [app]. cbn [trap_int]. lra.
  - cbn [app]. cbn [trap_int]. lra.
  - cbn [app] in *.
    change (trap_int f (a :: b :: g ++ x :: h))
      with ((b - a) * ((f a + f b) / 2) + trap_int f (b :: g ++ x :: h)).
    change (trap_int f (a :: b :: g ++ [x]))
      with ((b - a) * ((f a + f b) / 2) + trap_int f (b :: g ++ [x])).
    rewrite IH. lra.
Qed.

Lemma trap_pts_split l p m : trap_pts (l ++ p :: m) = trap_pts (l ++ [p]) + trap_pts (p :: m).
Proof.
  induction l as [|a [|b l] IH].
  - cbn [app]. cbn [trap_pts]. lra.
  - cbn [app]. cbn [trap_pts]. lra.
  - cbn [app] in *.
    change (trap_pts (a :: b :: l ++ p :: m))
      with ((fst b - fst a) * ((snd a + snd b) / 2) + trap_pts (b :: l ++ p :: m)).
    change (trap_pts (a :: b :: l ++ [p]))
      with ((fst b - fst a) * ((snd a + snd b) / 2) + trap_pts (b :: l ++ [p])).
    rewrite IH. lra.
Qed.

Lemma trapezoid_nonneg y x : ascending x -> Forall (fun v => 0 <= v) y -> 0 <= trapezoid y x.
Proof.
  revert x. induction y as [|y0 [|y1 y] IH]; intros [|x0 [|x1 x]] Ha H; try (cbn; lra).
  change (trapezoid (y0 :: y1 :: y) (x0 :: x1 :: x))
    with ((x1 - x0) * (y0 + y1) / 2 + trapezoid (y1 :: y) (x1 :: x)).
  pose proof (ascending_head _ _ _ Ha). inversion_clear H. inversion H2; subst.
  apply Rplus_le_le_0_compat; [|apply IH; [exact (ascending_tail _ _ Ha)|assumption]].
  unfold Rdiv. apply Rmult_le_pos; [|lra]. apply Rmult_le_pos; lra.
Qed.

Lemma trapezoid_scale c y x : trapezoid (map (Rmult c) y) x = c * trapezoid y x.
Proof.
  revert x. induction y as [|y0 [|y1 y] IH]; intros [|x0 [|x1 x]]; try (cbn; lra).
  change (trapezoid (map (Rmult c) (y0 :: y1 :: y)) (x0 :: x1 :: x))
    with ((x1 - x0) * (c * y0 + c * y1) / 2 + trapezoid (map (Rmult c) (y1 :: y)) (x1 :: x)).
  rewrite IH.
  change (trapezoid (y0 :: y1 :: y) (x0 :: x1 :: x))
    with ((x1 - x0) * (y0 + y1) / 2 + trapezoid (y1 :: y) (x1 :: x)). lra.
Qed.

Lemma trapezoid_plus y z x : length y = length z ->
  trapezoid (map2 Rplus y z) x = trapezoid y x + trapezoid z x.
Proof.
  revert z x. induction y as [|y0 [|y1 y] IH]; intros [|z0 [|z1 z]] [|x0 [|x1 x]] H;
    cbn in H; try lia; try (cbn; lra).
  change (trapezoid (map2 Rplus (y0 :: y1 :: y) (z0 :: z1 :: z)) (x0 :: x1 :: x))
    with ((x1 - x0) * ((y0 + z0) + (y1 + z1)) / 2
          + trapezoid (map2 Rplus (y1 :: y) (z1 :: z)) (x1 :: x)).
  rewrite IH by (cbn; lia).
  change (trapezoid (y0 :: y1 :: y) (x0 :: x1 :: x))
    with ((x1 - x0) * (y0 + y1) / 2 + trapezoid (y1 :: y) (x1 :: x)).
  change (trapezoid (z0 :: z1 :: z) (x0 :: x1 :: x))
    with ((x1 - x0) * (z0 + z1) / 2 + trapezoid (z1 :: z) (x1 :: x)). lra.
Qed.

Lemma linspace_nth a b n i : (i < n)%nat ->
  nth i (linspace a b n) 0 = a + INR i * ((b - a) / INR (n - 1)).
Proof.
  intros H. unfold linspace.
  rewrite (L_num.nth_map_in _ _ _ 0%nat) by (rewrite seq_length; exact H).
  rewrite seq_nth by exact H. reflexivity.
Qed.

Lemma linspace_even a b n : even_grid a b n (linspace a b n).
Proof. split; [apply linspace_length|intros i Hi; now apply linspace_nth]. Qed.

Lemma linspace_ascending a b n : a <= b -> ascending (linspace a b n).
Proof.
  intros H i Hi. rewrite linspace_length in Hi.
  rewrite !linspace_nth by lia.
  assert (D : 0 <= (b - a) / INR (n - 1)).
  { unfold Rdiv. apply Rmult_le_pos; [lra|].
    left. apply Rinv_0_lt_compat, lt_0_INR. lia. }
  rewrite S_INR. lra.
Qed.

Lemma linspace_flat a n t : In t (linspace a a n) -> t = a.
Proof. intros H. assert (a <= t <= a) by (apply (linspace_in a a n); [lra|exact H]). lra. Qed.

Lemma map3_maps {A B1 B2 B3 D} (f : B1 -> B2 -> B3 -> D) (u : A -> B1) (v : A -> B2) (w : A -> B3) l :
  map3 f (map u l) (map v l) (map w l) = map (fun x => f (u x) (v x) (w x)) l.
Proof. induction l as [|x l IH]; cbn; [reflexivity|now rewrite IH]. Qed.

(** A positive weight stays positive when multiplied by something positive
    wherever the weight is. *)
Lemma trap_int_pos_mult f h g : ascending g -> (forall t, In t g -> 0 <= f t) ->
  (forall t, In t g -> 0 <= h t) -> (forall t, In t g -> 0 < f t -> 0 < h t) ->
  0 < trap_int f g -> 0 < trap_int (fun t => f t * h t) g.
Proof.
  induction g as [|a [|b g] IH]; intros Ha Hf Hh Hp H; [cbn in H; lra|cbn in H; lra|].
  change (trap_int f (a :: b :: g)) with ((b - a) * ((f a + f b) / 2) + trap_int f (b :: g)) in H.
  change (trap_int (fun t => f t * h t) (a :: b :: g))
    with ((b - a) * ((f a * h a + f b * h b) / 2) + trap_int (fun t => f t * h t) (b :: g)).
  pose proof (ascending_head _ _ _ Ha) as Hab. pose proof (ascending_tail _ _ Ha) as Ha'.
  assert (Ia : In a (a :: b :: g)) by now left.
  assert (Ib : In b (a :: b :: g)) by (right; now left).
  assert (Tail : forall t, In t (b :: g) -> In t (a :: b :: g)) by (intros; now right).
  pose proof (Rmult_le_pos _ _ (Hf a Ia) (Hh a Ia)) as Qa.
  pose proof (Rmult_le_pos _ _ (Hf b Ib) (Hh b Ib)) as Qb.
  assert (Qg : 0 <= trap_int (fun t => f t * h t) (b :: g)).
  { apply trap_int_nonneg; [exact Ha'|]. intros t Ht. apply Rmult_le_pos; [apply Hf|apply Hh]; auto. }
  assert (Pg : 0 <= trap_int f (b :: g)) by (apply trap_int_nonneg; auto).
  destruct (Rlt_dec 0 (trap_int f (b :: g))) as [Hg|Hg].
  - assert (0 < trap_int (fun t => f t * h t) (b :: g)) by (apply IH; auto).
    assert (0 <= (b - a) * ((f a * h a + f b * h b) / 2)) by (apply Rmult_le_pos; lra). lra.
  - assert (E : trap_int f (b :: g) = 0) by lra. rewrite E in H.
    assert (Hd : 0 < b - a).
    { destruct (Req_dec (b - a) 0) as [E0|]; [rewrite E0 in H; lra|lra]. }
    pose proof (Hf a Ia). pose proof (Hf b Ib).
    assert (Hs : 0 < f a \/ 0 < f b).
    { destruct (Rlt_dec 0 (f a)); [now left|]. destruct (Rlt_dec 0 (f b)); [now right|].
      replace (f a) with 0 in H by lra. replace (f b) with 0 in H by lra. lra. }
    assert (0 < f a * h a + f b * h b).
    { destruct Hs as [Hs|Hs].
      - pose proof (Rmult_lt_0_compat _ _ Hs (Hp a Ia Hs)). lra.
      - pose proof (Rmult_lt_0_compat _ _ Hs (Hp b Ib Hs)). lra. }
    assert (0 < (b - a) * ((f a * h a + f b * h b) / 2)) by (apply Rmult_lt_0_compat; lra). lra.
Qed.
