(** Bulk coefficients, spacing, exit points, size sampling (C61, C92, C96-C100). *)
From Coq Require Import Lra Lia Psatz.
From Verif Require Import L_num L_slots L_montecarlo L_montecarlo2.
From Verif Require Export Spec_bulk.
Open Scope R_scope.

Lemma mu_value n refl trans ti phi r k lam :
  0 < r ->
  calc_mu_scat_abs (map refl (seq 0 n)) (map trans (seq 0 n)) (map ti (seq 0 n)) phi r k lam
  = (3 * phi / (2 * r) * over n (fun i => refl i + (if Nat.eqb (ti i) 1 then 0 else trans i)),
     3 * phi / (4 * r) * (1 - over n (fun i => refl i + trans i)) + 4 * PI * k / lam * (1 - phi)).
Proof.
  intros Hr. unfold calc_mu_scat_abs. rewrite !map2_maps, !Rsum_total. unfold over, sphere_density. cbv beta zeta.
  pose proof PI_RGT_0. f_equal.
  - field. split; lra.
  - rewrite Rsum_total. f_equal. field. split; lra.
Qed.

Lemma over_nonneg n g : (forall i, (i < n)%nat -> 0 <= g i) -> 0 <= over n g.
Proof.
  intros H. unfold over. apply total_nonneg, Forall_forall. intros x Hx.
  apply in_map_iff in Hx as (i & <- & Hi). apply in_seq in Hi. apply H. lia.
Qed.

(** ** Average spacing *)
Lemma d_avg_cubed phi r : 0 < phi -> 0 < r ->
  0 < calc_d_avg phi r /\ phi * calc_d_avg phi r ^ 3 = (2 * r) ^ 3.
Proof.
  intros Hp Hr. pose proof PI_RGT_0 as Hpi. unfold calc_d_avg, sphere_density.
  assert (Hr3 : 0 < r ^ 3) by (apply pow_lt; exact Hr).
  replace (3 / (4 * PI * (phi / (4 / 3 * PI * r ^ 3)))) with (r ^ 3 / phi) by (field; repeat split; lra).
  assert (Hq : 0 < r ^ 3 / phi) by (apply Rdiv_lt_0_compat; assumption).
  set (q := r ^ 3 / phi) in *.
  assert (Hpos : 0 < Rpower q (1 / 3)) by apply exp_pos.
  assert (H3 : Rpower q (1 / 3) ^ 3 = q).
  { rewrite <- Rpower_pow by exact Hpos. rewrite Rpower_mult.
    replace (1 / 3 * INR 3) with 1 by (cbn; field). now apply Rpower_1. }
  split; [lra|]. transitivity (phi * 8 * (Rpower q (1 / 3) ^ 3)); [ring|].
  rewrite H3. unfold q. field. lra.
Qed.

(** ** Exit points *)
Lemma exit_pos_on_sphere nr nt radius i a b :
  nth_error nr i = Some a -> nth_error nt i = Some b ->
  (dot a a = 1 /\ b = vzero) \/ (a = vzero /\ dot b b = 1) ->
  exists p, nth_error (get_exit_pos nr nt radius) i = Some p /\ dot p p = radius ^ 2
    /\ p = vscale radius (vadd a b).
Proof.
  intros Ha Hb Hab.
  assert (N : nth_error (get_exit_pos nr nt radius) i
     = Some (vx (vadd b a) * radius, vy (vadd b a) * radius, vz (vadd b a) * radius)).
  { unfold get_exit_pos. clear Hab. revert nt i Ha Hb.
    induction nr as [|x l IH]; intros [|y m] [|i] Ha Hb; try discriminate; cbn in *.
    - injection Ha as ->. injection Hb as ->. reflexivity.
    - now apply IH. }
  eexists. split; [exact N|].
  destruct a as [[ax ay] az], b as [[bx by_] bz]. unfold dot, vadd, vscale, vzero in *. cbn [vx vy vz fst snd] in *.
  split.
  - destruct Hab as [[H E]|[E H]]; inversion E; subst;
    match goal with |- ?l = _ => transitivity ((ax * ax + ay * ay + az * az) * radius ^ 2) || idtac end.
    + ring.
    + rewrite H. ring.
    + transitivity ((bx * bx + by_ * by_ + bz * bz) * radius ^ 2); [ring|]. rewrite H. ring.
  - f_equal; [f_equal|]; ring.
Qed.

(** ** Sampling by type *)
Lemma sample_poly_fold {A B} (P : A -> bool) (g : A -> B) l a0 :
  (forall l1 x l2, l = l1 ++ x :: l2 -> P x = true -> (forall y, In y l2 -> P y = false) ->
     fold_left (fun acc x => if P x then g x else acc) l a0 = g x)
  /\ ((forall y, In y l -> P y = false) ->
     fold_left (fun acc x => if P x then g x else acc) l a0 = a0).
Proof.
  assert (N : forall l a0, (forall y, In y l -> P y = false) ->
     fold_left (fun acc x => if P x then g x else acc) l a0 = a0).
  { clear. induction l as [|x l IH]; intros a0 H; [reflexivity|]. cbn. rewrite H by now left.
    apply IH. intros y Hy. apply H. now right. }
  split; [|apply N].
  intros l1 x l2 -> Hx H2. rewrite fold_left_app. cbn. rewrite Hx. now apply N.
Qed.

Lemma combine_split {A B} (d1 : A) (d2 : B) la lb j : length la = length lb -> (j < length la)%nat ->
  combine la lb = firstn j (combine la lb) ++ (nth j la d1, nth j lb d2) :: skipn (S j) (combine la lb).
Proof.
  intros Hl Hj. rewrite <- combine_nth by exact Hl.
  rewrite <- (firstn_skipn j (combine la lb)) at 1. f_equal.
  assert (Hc : (j < length (combine la lb))%nat) by (rewrite combine_length; lia).
  revert Hc. generalize (combine la lb). clear. induction j as [|j IH]; intros [|x l] Hc; cbn in *; try lia; [reflexivity|].
  apply IH. lia.
Qed.

Lemma nth_skipn_add {A} (d : A) j : forall l k, nth k (skipn j l) d = nth (j + k) l d.
Proof.
  induction j as [|j IH]; intros l k; [reflexivity|]. destruct l as [|x l]; [now destruct k|]. cbn. apply IH.
Qed.
Lemma skipn_in {A} (d : A) j l x : In x (skipn j l) -> exists k, (j <= k)%nat /\ (k < length l)%nat /\ nth k l d = x.
Proof.
  intros H. apply (In_nth _ _ d) in H as (k & Hk & E). rewrite skipn_length in Hk.
  exists (j + k)%nat. split; [lia|]. split; [lia|]. now rewrite <- nth_skipn_add.
Qed.

Lemma sample_poly_type nang mu params u c v j :
  length mu = length params -> last_type params v j ->
  sample_poly nang mu params u c v = (nth (c j) (poly_angles nang) 0, - ln (1 - u j) * (1 / nth j mu 0)).
Proof.
  intros Hl (Hj & Hv & Hlast). unfold sample_poly.
  set (L := combine (seq 0 (length params)) (combine mu params)).
  pose (P := fun x : nat * (R * R) => Reqb v (snd (snd x))).
  pose (g := fun x : nat * (R * R) => (nth (c (fst x)) (poly_angles nang) 0, - ln (1 - u (fst x)) * (1 / fst (snd x)))).
  assert (E : fold_left (fun (acc : R * R) (jm : nat * (R * R)) =>
     let '(j, (m, q)) := jm in
     if Reqb v q then (nth (c j) (poly_angles nang) 0, - ln (1 - u j) * (1 / m)) else acc) L (0, 0)
     = fold_left (fun acc x => if P x then g x else acc) L (0, 0)).
  { generalize (0, 0). induction L as [|[i [m q]] L IH]; intros a0; [reflexivity|]. cbn. apply IH. }
  rewrite E. clear E.
  assert (HL : length (seq 0 (length params)) = length (combine mu params))
    by (rewrite seq_length, combine_length; lia).
  assert (HLL : length L = length params) by (unfold L; rewrite combine_length, combine_length, seq_length; lia).
  assert (HN : forall k, (k < length params)%nat -> nth k L (0%nat, (0, 0)) = (k, (nth k mu 0, nth k params 0))).
  { intros k Hk. unfold L. rewrite combine_nth by exact HL. rewrite seq_nth by exact Hk.
    now rewrite combine_nth by exact Hl. }
  pose proof (proj1 (sample_poly_fold P g L (0, 0)) (firstn j L) (j, (nth j mu 0, nth j params 0)) (skipn (S j) L)) as F.
  rewrite F; [reflexivity| | |].
  - unfold L. rewrite (combine_split 0%nat (0, 0) _ _ j HL) at 1 by (rewrite seq_length; exact Hj).
    rewrite seq_nth by exact Hj. now rewrite combine_nth by exact Hl.
  - unfold P. cbn. apply Reqb_true. now symmetry.
  - intros y Hy. apply (skipn_in (0%nat, (0, 0))) in Hy as (k & Hk & HkL & Hy).
    rewrite HLL in HkL. rewrite HN in Hy by exact HkL. subst y. unfold P. cbn. apply Reqb_false.
    intros Ev. apply (Hlast k); [lia|exact HkL|now symmetry].
Qed.

Lemma sample_poly_none nang mu params u c v :
  (forall k, (k < length params)%nat -> nth k params 0 <> v) ->
  sample_poly nang mu params u c v = (0, 0).
Proof.
  intros H. unfold sample_poly.
  assert (Q : forall x, In x (combine (seq 0 (length params)) (combine mu params)) -> snd (snd x) <> v).
  { intros [i [m q]] Hx. apply in_combine_r in Hx. apply in_combine_r in Hx.
    apply (In_nth _ _ 0) in Hx as (k & Hk & E). cbn. subst q. now apply H. }
  revert Q. generalize (0, 0). generalize (combine (seq 0 (length params)) (combine mu params)).
  induction l as [|[i [m q]] l IH]; intros a0 Q; [reflexivity|]. cbn.
  rewrite (proj2 (Reqb_false v q)).
  - apply IH. intros x Hx. apply Q. now right.
  - intros E. apply (Q (i, (m, q))); [now left|]. now symmetry.
Qed.

Lemma poly_prob_dist p :
  Forall (fun x => 0 <= x) p ->
  total (map2 (fun x t => x * sin t) p (poly_angles (length p))) <> 0 ->
  exists q, poly_prob p = map Some q /\ length q = length p /\ Forall (fun x => 0 <= x) q /\ total q = 1.
Proof.
  intros Hp Ht. apply (sample_angles_dist p (1 / 100)); [pose proof PI2_3_2; lra|exact Hp|exact Ht].
Qed.

(** ** Size distribution *)
Lemma narrow_pos mean t d : 0 < d -> 100 < t -> 0 < narrow mean t d.
Proof.
  intros Hd Ht. unfold narrow. cbv zeta. apply Rdiv_lt_0_compat; [apply exp_pos|].
  apply sqrt_lt_R0. pose proof PI_RGT_0. 
  assert (0 < sqrt (t + 1)) by (apply sqrt_lt_R0; lra).
  assert (0 < d / sqrt (t + 1)) by (apply Rdiv_lt_0_compat; assumption).
  apply Rmult_lt_0_compat; [lra|]. apply pow_lt. assumption.
Qed.
Lemma schulz_pos factorial mean t d : 0 < d -> 0 < factorial t -> 0 < schulz factorial mean t d.
Proof.
  intros Hd Hf. unfold schulz, npow. rewrite (proj2 (Reqb_false d 0)) by lra.
  apply Rmult_lt_0_compat; [|apply exp_pos]. apply Rdiv_lt_0_compat; [|exact Hf].
  apply Rmult_lt_0_compat; apply exp_pos.
Qed.
Lemma size_distr_pos factorial l mean t :
  (forall d, In d l -> 0 < d) -> 0 < factorial t -> Forall (fun x => 0 < x) (size_distr factorial l mean t).
Proof.
  intros Hl Hf. unfold size_distr. destruct (Rleb t 100) eqn:E.
  - apply Forall_forall. intros x Hx. apply in_map_iff in Hx as (d & <- & Hd). apply schulz_pos; auto.
  - apply Rleb_false in E. apply Forall_forall. intros x Hx. apply in_map_iff in Hx as (d & <- & Hd).
    apply narrow_pos; auto.
Qed.
Lemma size_distr_length factorial l mean t : length (size_distr factorial l mean t) = length l.
Proof. unfold size_distr. destruct (Rleb t 100); apply map_length. Qed.

Lemma diam_prob_dist factorial pdi l mean :
  l <> [] -> (forall d, In d l -> 0 < d) -> 0 < factorial ((1 - pdi ^ 2) / pdi ^ 2) ->
  exists q, diam_prob factorial pdi l mean = map Some q /\ length q = length l
    /\ Forall (fun x => 0 <= x) q /\ total q = 1.
Proof.
  intros Hn Hl Hf. unfold diam_prob.
  pose proof (size_distr_pos factorial l mean _ Hl Hf) as P.
  set (s := size_distr factorial l mean ((1 - pdi ^ 2) / pdi ^ 2)) in *.
  assert (P0 : Forall (fun x => 0 <= x) s) by (eapply Forall_impl; [|exact P]; intros; lra).
  destruct (normalise_distribution s P0) as (q & E & L & N & T).
  - assert (s <> []).
    { intros E. apply (f_equal (@length R)) in E. unfold s in E. rewrite size_distr_length in E. destruct l; [contradiction|discriminate]. }
    destruct s as [|x s]; [contradiction|]. cbn. inversion P; subst. inversion P0; subst.
    pose proof (total_nonneg s H5). lra.
  - exists q. rewrite L. unfold s. rewrite size_distr_length. auto.
Qed.
