(** Proofs for C150: films of different thickness. *)
From Coq Require Import Lra Lia Psatz.
From Verif Require Import L_outcomes L_meta L_meta3 L_meta4 Spec_meta Spec_thick.
Open Scope R_scope.

Local Notation z t j := (vz (nth j (t_pos t) vzero)).

Lemma stay_or_leave th t n : (forall j, (j <= n)%nat -> 0 <= z t j < th)
  \/ z t 0%nat < 0 \/ th <= z t 0%nat
  \/ exists i, (i < n)%nat /\ (forall j, (j <= i)%nat -> 0 <= z t j < th) /\ (z t (S i) < 0 \/ th <= z t (S i)).
Proof.
  induction n as [|n IH].
  - destruct (Rlt_dec (z t 0%nat) 0); [tauto|]. destruct (Rle_dec th (z t 0%nat)); [tauto|]. left. intros j Hj.
    replace j with 0%nat by lia. lra.
  - destruct IH as [H|[H|[H|(i & Hi & H)]]]; [|tauto|tauto|right; right; right; exists i; split; [lia|exact H]].
    destruct (Rlt_dec (z t (S n)) 0) as [L|L]; [right; right; right; exists n; split; [lia|]; split; [exact H|tauto]|].
    destruct (Rle_dec th (z t (S n))) as [L'|L']; [right; right; right; exists n; split; [lia|]; split; [exact H|tauto]|].
    left. intros j Hj. destruct (Nat.eq_dec j (S n)) as [->|]; [lra|]. apply H; lia.
Qed.

(** A trajectory that stays inside is stuck. *)
Lemma inside_stuck n th t : wf_len t -> dirs_ok t -> 0 < th -> 0 < n ->
  (forall j, (j <= length (t_dir t))%nat -> 0 <= z t j < th) ->
  exists ti, event_indices n n th 0 film t = (0%nat, 0%nat, length (t_dir t), ti).
Proof.
  intros Hw Hd Ht Hn Hin.
  destruct (find_valid_exits n n th 0 film t) as [[ps ng] ti] eqn:He.
  destruct (trajectory_outcome _ _ _ _ _ _ _ _ _ Hw He) as [r [tt [s [Hev Ho]]]].
  destruct (film_lengths _ _ _ _ _ _ _ _ Hw He) as [L1 [L2 _]].
  assert (N : forall j, (j < length (t_dir t))%nat -> nth j ps false = false /\ nth j ng false = false).
  { intros j Hj. pose proof (film_exit_characterised n n th 0 t ps ng ti j 0 Hw Hd Ht ltac:(lra) He Hj) as H.
    cbn zeta in H. destruct H as [Hp [Hg _]].
    { unfold in_slab. specialize (Hin j ltac:(lia)). lra. }
    specialize (Hin (S j) ltac:(lia)). split.
    - destruct (nth j ps false); [|reflexivity]. destruct Hp as [Hp _]. destruct (Hp eq_refl) as [_ [[_ H]|[H _]]]; [lra|discriminate].
    - destruct (nth j ng false); [|reflexivity]. destruct Hg as [Hg _]. destruct (Hg eq_refl) as [_ [[_ H]|[H _]]]; [lra|discriminate]. }
  destruct Ho as [(_ & _ & -> & -> & ->)|[(k & _ & Hk & Hl & _)|(k & _ & Hk & Hl & _)]].
  - eexists. exact Hev.
  - destruct (N k Hl) as [_ E]. congruence.
  - destruct (N k Hl) as [E _]. congruence.
Qed.

(** The first crossing of a face is an exit. *)
Lemma crossing_exits n th t i : wf_len t -> dirs_ok t -> follows_directions t -> 0 < th -> 0 < n -> (i < length (t_dir t))%nat ->
  (forall j, (j <= i)%nat -> 0 <= z t j < th) ->
  (z t (S i) < 0 \/ th <= z t (S i) -> vz (nth i (t_dir t) vzero) <> 0)
  /\ (z t (S i) < 0 -> exists ti, event_indices n n th 0 film t = (S i, 0%nat, 0%nat, ti))
  /\ (th <= z t (S i) -> exists ti, event_indices n n th 0 film t = (0%nat, S i, 0%nat, ti)).
Proof.
  intros Hw Hd Hf Ht Hn Hi Hin.
  assert (K : z t (S i) < 0 \/ th <= z t (S i) -> vz (nth i (t_dir t) vzero) <> 0).
  { intros O E. destruct (Hf i Hi) as (s & Es). rewrite E in Es. specialize (Hin i (le_n i)). lra. }
  split; [exact K|].
  assert (G : vz (nth i (t_dir t) vzero) <> 0 -> steep n n (vz (nth i (t_dir t) vzero))).
  { intros Hz. unfold steep. set (kz := vz (nth i (t_dir t) vzero)) in *.
    assert (0 < kz ^ 2) by (pose proof (pow2_ge_0 kz); assert (kz ^ 2 <> 0) by (apply pow_nonzero; exact Hz); lra).
    rewrite <- (Rmult_1_r n) at 2. apply Rmult_lt_compat_l; [exact Hn|].
    destruct (Rle_dec 0 (1 - kz ^ 2)) as [A|A].
    - rewrite <- sqrt_1 at 2. apply sqrt_lt_1_alt. lra.
    - rewrite sqrt_neg_0 by lra. lra. }
  split; intros O; destruct (first_exit_physical n n th t i Hw Hd Ht ltac:(lra) Hi Hin) as [A B]; try (apply G, K; tauto); [now apply A|now apply B].
Qed.

Inductive same_fate (th th' : R) (n : R) (t : traj) : Prop :=
| fate_stuck : forall ti ti',
    event_indices n n th 0 film t = (0%nat, 0%nat, length (t_dir t), ti) ->
    event_indices n n th' 0 film t = (0%nat, 0%nat, length (t_dir t), ti') -> same_fate th th' n t
| fate_reflected : forall i ti ti', (i < length (t_dir t))%nat -> vz (nth i (t_dir t) vzero) <> 0 ->
    event_indices n n th 0 film t = (S i, 0%nat, 0%nat, ti) ->
    event_indices n n th' 0 film t = (S i, 0%nat, 0%nat, ti') -> same_fate th th' n t
| fate_transmitted : forall i ti, (i < length (t_dir t))%nat -> vz (nth i (t_dir t) vzero) <> 0 ->
    event_indices n n th 0 film t = (0%nat, S i, 0%nat, ti) ->
    (exists ti', event_indices n n th' 0 film t = (0%nat, 0%nat, length (t_dir t), ti'))
    \/ (exists j ti', (i <= j < length (t_dir t))%nat /\ vz (nth j (t_dir t) vzero) <> 0
         /\ (event_indices n n th' 0 film t = (S j, 0%nat, 0%nat, ti') \/ event_indices n n th' 0 film t = (0%nat, S j, 0%nat, ti'))) ->
    same_fate th th' n t.

Lemma fates th th' n t : wf_len t -> dirs_ok t -> follows_directions t -> 0 < th <= th' -> 0 < n -> 0 <= z t 0%nat < th ->
  same_fate th th' n t.
Proof.
  intros Hw Hd Hf Ht Hn H0.
  destruct (stay_or_leave th t (length (t_dir t))) as [H|[H|[H|(i & Hi & Hin & Hout)]]]; try lra.
  - destruct (inside_stuck n th t Hw Hd ltac:(lra) Hn H) as (ti & E).
    destruct (inside_stuck n th' t Hw Hd ltac:(lra) Hn) as (ti' & E'); [intros j Hj; specialize (H j Hj); lra|].
    eapply fate_stuck; eauto.
  - destruct (crossing_exits n th t i Hw Hd Hf ltac:(lra) Hn Hi Hin) as (K & A & B). specialize (K Hout).
    destruct Hout as [O|O].
    + destruct (A O) as (ti & E).
      destruct (crossing_exits n th' t i Hw Hd Hf ltac:(lra) Hn Hi) as (_ & A' & _); [intros j Hj; specialize (Hin j Hj); lra|].
      destruct (A' O) as (ti' & E'). eapply fate_reflected; eauto.
    + destruct (B O) as (ti & E). eapply fate_transmitted; eauto.
      destruct (stay_or_leave th' t (length (t_dir t))) as [H|[H|[H|(j & Hj & Hin' & Hout)]]]; try lra.
      * left. destruct (inside_stuck n th' t Hw Hd ltac:(lra) Hn H) as (ti' & E'). eauto.
      * right. destruct (crossing_exits n th' t j Hw Hd Hf ltac:(lra) Hn Hj Hin') as (K' & A' & B'). specialize (K' Hout).
        assert (i <= j)%nat.
        { destruct (Nat.le_gt_cases i j) as [|L]; [assumption|]. specialize (Hin (S j) ltac:(lia)). lra. }
        destruct Hout as [O'|O']; [destruct (A' O') as (ti' & E')|destruct (B' O') as (ti' & E')]; exists j, ti'; repeat split; auto.
Qed.

(** ** The answer of an index-matched film *)
Definition cc : R := 1 / (1 + EPS).
Lemma cc_range : 9 / 10 < cc < 1 /\ 1 - cc <= EPS.
Proof.
  pose proof EPS_pos. assert (EPS < 1 / 10) by (unfold EPS; apply (Rmult_lt_reg_r (10 ^ 9)); [apply pow_lt; lra|]; rewrite Rinv_l by (apply pow_nonzero; lra); lra).
  assert (E : cc * (1 + EPS) = 1) by (unfold cc; field; lra). split; nra.
Qed.

Lemma pf1_matched n th : 0 < n -> 0 <= th < PI / 2 -> pf1 n None n th = cc.
Proof.
  intros Hn Ht. unfold pf1, theta_inside. 
  assert (E : refraction th n n = Some th).
  { unfold refraction. replace (n / n) with 1 by (field; lra). rewrite Rmult_1_l.
    rewrite (proj2 (Rltb_false _ _)) by (apply Rabs_le; pose proof (SIN_bound th); lra). f_equal. apply asin_sin. lra. }
  rewrite E. unfold fresnel_trans1. rewrite (refl_no_contrast n th Hn Ht). cbn [fst snd]. unfold cc. f_equal; lra.
Qed.

Section Matched.
Variables (P : params) (n : R).
Hypothesis Hn : 0 < n.
Hypothesis Hs : p_nsample P = n.
Hypothesis Hm : p_nmedium P = n.
Hypothesis Hf : p_nfront P = None.
Hypothesis Hbk : p_nback P = None.
Hypothesis Hb : p_boundary P = film.
Hypothesis Hdet : p_detection P = PI / 2.
Hypothesis Hnp : p_nparticle P = None.

Lemma nt_n : choose_n_tir P = n.
Proof. unfold choose_n_tir. rewrite Hnp, Hs. apply Rabs_pos_eq. lra. Qed.

(** Weights that leave do so at an angle below 90 degrees. *)
Definition proper (a : view) : Prop :=
  (v_wr a = 0 \/ 0 <= v_ar a < PI / 2) /\ (v_wt a = 0 \/ 0 <= v_at a < PI / 2).

Lemma c_matched a : proper a ->
  c_rp P false a = cc * c_rw P false a /\ c_tp P false a = cc * c_tw P false a
  /\ c_dr P false a = c_rp P false a /\ c_dt P false a = c_tp P false a
  /\ c_di P false a = 1 - v_inc P false a.
Proof.
  intros [A B].
  assert (E1 : c_rp P false a = cc * c_rw P false a).
  { unfold c_rp. rewrite nt_n, Hf, Hm. destruct A as [A|A]; [unfold c_rw; rewrite A; ring|]. rewrite pf1_matched by assumption. ring. }
  assert (E2 : c_tp P false a = cc * c_tw P false a).
  { unfold c_tp. rewrite nt_n, Hbk, Hm. destruct B as [B|B]; [unfold c_tw; rewrite B; ring|]. rewrite pf1_matched by assumption. ring. }
  split; [exact E1|]. split; [exact E2|].
  unfold c_dr, c_dt, c_di. rewrite Hdet, Hm, Hs. rewrite Rabs_pos_eq by lra.
  rewrite !detect1_same by lra. auto.
Qed.

Lemma c_R_matched v : (forall a, In a v -> proper a) ->
  let A := total (map (c_rw P false) v) in
  let B := total (map (c_tw P false) v) in
  let S := total (map (c_sw P false) v) in
  let rf := c_rfrac P false v in
  let tf := c_tfrac P false v in
  c_R P false v = (cc * A + (1 - cc) * (A * rf + B * tf) + S / 2 + total (map (fun a => 1 - v_inc P false a) v)) / INR (length v)
  /\ c_T P false v = (cc * B + (1 - cc) * (B * rf + A * tf) + S / 2) / INR (length v)
  /\ rf = cc * A / c_known P false v /\ tf = cc * B / c_known P false v
  /\ c_known P false v = total (map (c_ab P false) v) + cc * A + cc * B.
Proof.
  intros Hp A B S rf tf.
  assert (T : forall (f g : view -> R) l, (forall a, In a l -> f a = g a) -> total (map f l) = total (map g l)).
  { intros f g l H. f_equal. apply map_ext_in. exact H. }
  assert (L : forall (f : view -> R) x l, total (map (fun a => x * f a) l) = x * total (map f l)).
  { intros f x l. induction l as [|a l IH]; cbn; [ring|]. rewrite IH. ring. }
  assert (Ad : forall (f g : view -> R) l, total (map (fun a => f a + g a) l) = total (map f l) + total (map g l)).
  { intros f g l. induction l as [|a l IH]; cbn; [ring|]. rewrite IH. ring. }
  assert (Erp : total (map (c_rp P false) v) = cc * A) by (unfold A; rewrite <- L; apply T; intros a Ha; now apply c_matched, Hp).
  assert (Etp : total (map (c_tp P false) v) = cc * B) by (unfold B; rewrite <- L; apply T; intros a Ha; now apply c_matched, Hp).
  assert (Edr : total (map (c_dr P false) v) = cc * A) by (rewrite <- Erp; apply T; intros a Ha; now apply c_matched, Hp).
  assert (Edt : total (map (c_dt P false) v) = cc * B) by (rewrite <- Etp; apply T; intros a Ha; now apply c_matched, Hp).
  assert (X : forall x, Rmax x EPS / Rmax x EPS = 1).
  { intros x. unfold Rdiv. apply Rinv_r. pose proof EPS_pos. pose proof (Rmax_r x EPS). lra. }
  assert (E1 : c_rdf P false v = 1) by (unfold c_rdf; rewrite Edr, Erp; apply X).
  assert (E2 : c_tdf P false v = 1) by (unfold c_tdf; rewrite Edt, Etp; apply X).
  assert (Q : forall (f : view -> R) x l, total (map (fun a => f a / x) l) = total (map f l) / x).
  { intros f x l. induction l as [|a l IH]; cbn; [unfold Rdiv; ring|]. rewrite IH. unfold Rdiv. ring. }
  split; [|split].
  - unfold c_R. rewrite Q. f_equal.
    rewrite (T _ (fun a => cc * c_rw P false a + (((1 - cc) * rf) * c_rw P false a + ((1 - cc) * tf) * c_tw P false a + 1 / 2 * c_sw P false a) + (1 - v_inc P false a))).
    + rewrite !Ad, !L. fold A B S. field.
    + intros a Ha. destruct (c_matched a (Hp a Ha)) as (M1 & M2 & M3 & M4 & M5). rewrite M3, M5, E1. unfold c_er. rewrite Hb.
      unfold c_rf, c_tf. rewrite M1, M2. fold rf tf. field.
  - unfold c_T. rewrite Q. f_equal.
    rewrite (T _ (fun a => cc * c_tw P false a + (((1 - cc) * rf) * c_tw P false a + ((1 - cc) * tf) * c_rw P false a + 1 / 2 * c_sw P false a))).
    + rewrite !Ad, !L. fold A B S. field.
    + intros a Ha. destruct (c_matched a (Hp a Ha)) as (M1 & M2 & M3 & M4 & M5). rewrite M4, E2. unfold c_et. rewrite Hb.
      unfold c_rf, c_tf. rewrite M1, M2. fold rf tf. field.
  - unfold rf, tf, c_rfrac, c_tfrac. rewrite Erp, Etp. split; [reflexivity|]. split; [reflexivity|].
    unfold c_known. cbv iota. rewrite (Ad (fun a => c_ab P false a + c_rp P false a) (c_tp P false)), (Ad (c_ab P false) (c_rp P false)).
    rewrite Erp, Etp. ring.
Qed.
End Matched.

(** What is asked of one trajectory. *)
Definition path_ok (th : R) (t : traj) : Prop :=
  col_ok 1 t /\ dirs_ok t /\ follows_directions t /\ fading t /\ 0 <= z t 0%nat < th.

Lemma steep_angle kz : -1 <= kz <= 1 -> kz <> 0 -> 0 <= film_angle kz < PI / 2.
Proof.
  intros H K. split; [apply film_angle_range|]. unfold film_angle.
  assert (0 < Rabs kz) by (apply Rabs_pos_lt; exact K). assert (Rabs kz <= 1) by (apply Rabs_le; lra).
  destruct (Rlt_dec (acos (Rabs kz)) (PI / 2)) as [|L]; [assumption|exfalso].
  pose proof (acos_bound (Rabs kz)) as Bd. pose proof PI_RGT_0.
  assert (cos (acos (Rabs kz)) <= cos (PI / 2)) by (apply cos_decr_1; lra). rewrite cos_PI2, cos_acos in *; lra.
Qed.

Section Two.
Variables (P : params) (n th' : R).
Hypothesis Hn : 0 < n.
Hypothesis Hs : p_nsample P = n.
Hypothesis Hm : p_nmedium P = n.
Hypothesis Hf : p_nfront P = None.
Hypothesis Hbk : p_nback P = None.
Hypothesis Hb : p_boundary P = film.
Hypothesis Hz : p_zlow P = 0.
Hypothesis Hdet : p_detection P = PI / 2.
Hypothesis Hnp : p_nparticle P = None.
Hypothesis Hth : 0 < p_thickness P <= th'.
Local Notation P' := (with_thickness th' P).

Lemma view_eq Q t (ev : nat * nat * nat * nat) : p_nparticle Q = None -> p_nsample Q = n -> p_nmedium Q = n -> p_zlow Q = 0 -> p_boundary Q = film ->
  event_indices n n (p_thickness Q) 0 film t = ev ->
  film_view Q t = mk_view (i_refl ev) (i_trans ev) (film_exit_angle t 1) (select_col (t_w t) (i_refl ev)) (select_col (t_w t) (i_trans ev))
     (select_col (t_w t) (i_stuck ev)) (film_exit_angle t (i_refl ev)) (film_exit_angle t (i_trans ev)) (vz (nth 0 (t_dir t) vzero)) 0.
Proof.
  intros A1 A2 A3 A4 A5 E. unfold film_view. unfold choose_n_tir. rewrite A1, A2, A3, A4, A5. rewrite (Rabs_pos_eq n) by lra. rewrite E.
  unfold L_meta.exit_angle. rewrite A5. reflexivity.
Qed.

Lemma exit_steep t i : dirs_ok t -> (i < length (t_dir t))%nat -> vz (nth i (t_dir t) vzero) <> 0 -> 0 <= film_exit_angle t (S i) < PI / 2.
Proof.
  intros Hd Hi K. unfold film_exit_angle. cbn [select_col]. 
  rewrite (nth_indep _ 0 (vz vzero)) by (rewrite map_length; exact Hi). rewrite map_nth.
  apply steep_angle; [now apply dirs_ok_nth|exact K].
Qed.

Lemma pair_views t : path_ok (p_thickness P) t ->
  let a := film_view P t in let a' := film_view P' t in
  proper a /\ proper a' /\ v_inc P false a' = v_inc P false a
  /\ v_wr a <= v_wr a' /\ v_ws a <= v_ws a' /\ v_wt a' <= v_wt a
  /\ v_wr a' + v_wt a' + v_ws a' <= v_wr a + v_wt a + v_ws a
  /\ (flat 1 t -> v_wr a + v_wt a + v_ws a = 1 /\ v_wr a' + v_wt a' + v_ws a' = 1).
Proof.
  intros (Hc & Hd & Hfo & Hfa & H0) a a'. destruct Hc as (Hw & Hcol). pose proof Hw as (L1 & L2 & L3).
  assert (Wn : forall i, (i < length (t_dir t))%nat -> 0 <= nth i (t_w t) 0 <= 1).
  { intros i Hi. rewrite Forall_forall in Hcol. apply Hcol, nth_In. lia. }
  assert (Wf : flat 1 t -> forall i, (i < length (t_dir t))%nat -> nth i (t_w t) 0 = 1).
  { intros F i Hi. rewrite F. rewrite (nth_indep _ 0 1) by (rewrite repeat_length; exact Hi). apply nth_repeat. }
  assert (Wm : forall i j, (i <= j < length (t_dir t))%nat -> nth j (t_w t) 0 <= nth i (t_w t) 0) by (intros i j Hij; apply Hfa; lia).
  destruct (length (t_dir t)) as [|m] eqn:El; [lia|]. rewrite <- El in *.
  assert (Sel : forall ev, select_col (t_w t) (S ev) = nth ev (t_w t) 0) by reflexivity.
  destruct (fates (p_thickness P) th' n t Hw Hd Hfo Hth Hn H0) as [ti ti' E E'|i ti ti' Hi K E E'|i ti Hi K E Hcase].
  - unfold a, a'. rewrite (view_eq P t _ Hnp Hs Hm Hz Hb E), (view_eq P' t _ Hnp Hs Hm Hz Hb E').
    cbn [i_refl i_trans i_stuck v_wr v_wt v_ws v_ar v_at]. rewrite El in *. cbn [select_col]. unfold proper. cbn [v_wr v_wt v_ar v_at select_col].
    repeat split; auto; try lra; intros; rewrite Wf by (auto; lia); lra.
  - unfold a, a'. rewrite (view_eq P t _ Hnp Hs Hm Hz Hb E), (view_eq P' t _ Hnp Hs Hm Hz Hb E').
    cbn [i_refl i_trans i_stuck v_wr v_wt v_ws v_ar v_at]. unfold proper. cbn [v_wr v_wt v_ar v_at select_col].
    pose proof (exit_steep t i Hd Hi K). repeat split; auto; try lra; intros; rewrite Wf by (auto; lia); lra.
  - unfold a, a'. rewrite (view_eq P t _ Hnp Hs Hm Hz Hb E). pose proof (exit_steep t i Hd Hi K) as X. pose proof (Wn i Hi) as Wi.
    destruct Hcase as [(ti' & E')|(j & ti' & Hj & K' & [E'|E'])]; rewrite (view_eq P' t _ Hnp Hs Hm Hz Hb E');
      cbn [i_refl i_trans i_stuck v_wr v_wt v_ws v_ar v_at]; unfold proper; cbn [v_wr v_wt v_ar v_at].
    + rewrite El in *. cbn [select_col]. pose proof (Wn m ltac:(lia)). pose proof (Wm i m ltac:(lia)).
      repeat split; auto; try lra; intros; rewrite Wf by (auto; lia); lra.
    + cbn [select_col]. pose proof (exit_steep t j Hd ltac:(lia) K'). pose proof (Wn j ltac:(lia)). pose proof (Wm i j ltac:(lia)).
      repeat split; auto; try lra; intros; rewrite Wf by (auto; lia); lra.
    + cbn [select_col]. pose proof (exit_steep t j Hd ltac:(lia) K'). pose proof (Wn j ltac:(lia)). pose proof (Wm i j ltac:(lia)).
      repeat split; auto; try lra; intros; rewrite Wf by (auto; lia); lra.
Qed.

Lemma total_map_le {A} (f g : A -> R) l : (forall x, In x l -> f x <= g x) -> total (map f l) <= total (map g l).
Proof. apply total_le_map. Qed.
Lemma total_map_eq {A} (f g : A -> R) l : (forall x, In x l -> f x = g x) -> total (map f l) = total (map g l).
Proof. intros H. f_equal. apply map_ext_in. exact H. Qed.
Lemma total_map_plus {A} (f g : A -> R) l : total (map (fun x => f x + g x) l) = total (map f l) + total (map g l).
Proof. induction l as [|x l IH]; cbn; [ring|]. rewrite IH. ring. Qed.
Lemma total_map_one {A} (l : list A) : total (map (fun _ => 1) l) = INR (length l).
Proof. induction l as [|x l IH]; [reflexivity|]. cbn [map total length]. rewrite IH, S_INR. ring. Qed.

(** Sums over the trajectories. *)
Lemma sums trs : (forall t, In t trs -> path_ok (p_thickness P) t) ->
  bad_angle P false (map (film_view P) trs) = false ->
  let v := map (film_view P) trs in let v' := map (film_view P') trs in
  let A := total (map (c_rw P false) v) in let B := total (map (c_tw P false) v) in let S := total (map (c_sw P false) v) in
  let A' := total (map (c_rw P false) v') in let B' := total (map (c_tw P false) v') in let S' := total (map (c_sw P false) v') in
  0 <= A <= A' /\ 0 <= B' <= B /\ 0 <= S <= S' /\ A' + B' + S' <= A + B + S
  /\ A + B + S + total (map (c_ab P false) v) <= INR (length trs)
  /\ A' + B' + S' + total (map (c_ab P false) v') <= INR (length trs)
  /\ 0 <= total (map (c_ab P false) v) /\ 0 <= total (map (c_ab P false) v')
  /\ total (map (fun a => 1 - v_inc P false a) v) = total (map (fun a => 1 - v_inc P false a) v')
  /\ ((forall t, In t trs -> flat 1 t) -> total (map (c_ab P false) v) = 0 /\ total (map (c_ab P false) v') = 0 /\ A' + B' + S' = A + B + S).
Proof.
  intros Hp Hba v v'. cbv zeta.
  assert (Gm : 0 < p_nmedium P) by lra. assert (Gt : 0 < choose_n_tir P) by (rewrite (nt_n P n); auto).
  assert (Gf : forall m, p_nfront P = Some m -> 0 < m) by (rewrite Hf; discriminate).
  assert (K : forall t, In t trs -> let a := film_view P t in let a' := film_view P' t in
     0 <= c_rw P false a <= c_rw P false a' /\ 0 <= c_tw P false a' <= c_tw P false a /\ 0 <= c_sw P false a <= c_sw P false a'
     /\ c_rw P false a' + c_tw P false a' + c_sw P false a' <= c_rw P false a + c_tw P false a + c_sw P false a
     /\ 0 <= c_ab P false a /\ 0 <= c_ab P false a' /\ v_inc P false a' = v_inc P false a /\ 0 <= v_inc P false a <= 1
     /\ (flat 1 t -> c_ab P false a = 0 /\ c_ab P false a' = 0)).
  { intros t Ht a a'. destruct (pair_views t (Hp t Ht)) as (_ & _ & Ei & W1 & W2 & W3 & W4 & W5).
    pose proof (Hp t Ht) as (Hc & _).
    assert (Hg : forall Q, wview (film_view Q t) -> wview (film_view Q t)) by auto.
    assert (V : forall Q, event_indices n n (p_thickness Q) 0 film t = event_indices n n (p_thickness Q) 0 film t) by auto.
    assert (V1 : wview a).
    { unfold a. pose proof (film_view_ok (mk_params (p_thickness P) (p_nmedium P) (p_nsample P) (p_boundary P) (p_zlow P) (p_detection P)
        (p_nfront P) (p_nback P) (p_run P) (p_maxdepth P) (p_maxstuck P) (p_muabs P) None (p_kz0rot P) (p_kz0refl P) (p_fine P) (p_nparticle P) (p_nmatrix P)) t eq_refl Hc) as X.
      exact X. }
    assert (V2 : wview a').
    { unfold a'. pose proof (film_view_ok (mk_params th' (p_nmedium P) (p_nsample P) (p_boundary P) (p_zlow P) (p_detection P)
        (p_nfront P) (p_nback P) (p_run P) (p_maxdepth P) (p_maxstuck P) (p_muabs P) None (p_kz0rot P) (p_kz0refl P) (p_fine P) (p_nparticle P) (p_nmatrix P)) t eq_refl Hc) as X.
      exact X. }
    pose proof (inc_range P false v Gm Gt Gf Hba a (in_map _ _ _ Ht) V1) as Hi.
    destruct V1 as (X1 & X2 & X3 & X4 & _). destruct V2 as (Y1 & Y2 & Y3 & Y4 & _).
    fold a a' in Ei, W1, W2, W3, W4, W5.
    unfold c_ab, c_rw, c_tw, c_sw. rewrite Ei. set (i := v_inc P false a) in *. clearbody i.
    split; [split; nra|]. split; [split; nra|]. split; [split; nra|]. split; [nra|]. split; [nra|]. split; [nra|].
    split; [reflexivity|]. split; [lra|]. intros F. destruct (W5 F). split; nra. }
  unfold v, v'. rewrite !map_map.
  assert (Ab : forall Q : view -> view, forall l : list traj, True) by auto.
  assert (Sum : forall (g : traj -> view), (forall t, In t trs -> v_inc P false (g t) <= 1) ->
     total (map (fun t => c_rw P false (g t)) trs) + total (map (fun t => c_tw P false (g t)) trs) + total (map (fun t => c_sw P false (g t)) trs)
     + total (map (fun t => c_ab P false (g t)) trs) <= INR (length trs)).
  { intros g Hg. rewrite <- !total_map_plus. rewrite <- total_map_one. apply total_map_le. intros t Ht. unfold c_ab. specialize (Hg t Ht). lra. }
  split; [split; [apply total_nonneg_map; intros t Ht; apply (K t Ht)|apply total_map_le; intros t Ht; apply (K t Ht)]|].
  split; [split; [apply total_nonneg_map; intros t Ht; apply (K t Ht)|apply total_map_le; intros t Ht; apply (K t Ht)]|].
  split; [split; [apply total_nonneg_map; intros t Ht; apply (K t Ht)|apply total_map_le; intros t Ht; apply (K t Ht)]|].
  split; [rewrite <- !total_map_plus; apply total_map_le; intros t Ht; apply (K t Ht)|].
  split; [apply Sum; intros t Ht; apply (K t Ht)|].
  split; [apply Sum; intros t Ht; destruct (K t Ht) as (_ & _ & _ & _ & _ & _ & -> & Hi & _); apply Hi|].
  split; [apply total_nonneg_map; intros t Ht; apply (K t Ht)|].
  split; [apply total_nonneg_map; intros t Ht; apply (K t Ht)|].
  split; [apply total_map_eq; intros t Ht; destruct (K t Ht) as (_ & _ & _ & _ & _ & _ & -> & _); reflexivity|].
  intros F.
  assert (Z : forall f : traj -> R, (forall t, In t trs -> f t = 0) -> total (map f trs) = 0).
  { intros f. clear. induction trs as [|t l IH]; intros H; [reflexivity|]. cbn. rewrite (H t (or_introl eq_refl)), IH; [ring|]. intros; apply H; now right. }
  split; [apply Z; intros t Ht; apply (K t Ht), F, Ht|]. split; [apply Z; intros t Ht; apply (K t Ht), F, Ht|].
  rewrite <- !total_map_plus. apply total_map_eq. intros t Ht. destruct (K t Ht) as (_ & _ & _ & _ & _ & _ & Ei & _ & Hfl).
  destruct (Hfl (F t Ht)) as [E1 E2]. unfold c_ab in *. rewrite Ei in E2. lra.
Qed.

Lemma harmonic A B x y : 0 <= A -> 0 <= B -> 0 <= x -> 0 <= y -> x + y <= B -> 0 < A + B -> 0 < A + B - y ->
  (A + x) * (B - x - y) / (A + B - y) <= A * B / (A + B) + x.
Proof.
  intros HA HB Hx Hy Hxy H1 H2.
  apply (Rmult_le_reg_r ((A + B) * (A + B - y))); [nra|].
  replace ((A + x) * (B - x - y) / (A + B - y) * ((A + B) * (A + B - y))) with ((A + x) * (B - x - y) * (A + B)) by (field; lra).
  replace ((A * B / (A + B) + x) * ((A + B) * (A + B - y))) with (A * B * (A + B - y) + x * (A + B) * (A + B - y)) by (field; lra).
  assert (0 <= A * A * y) by (repeat apply Rmult_le_pos; lra). assert (0 <= 2 * (A * x * (A + B))) by (repeat apply Rmult_le_pos; lra).
  assert (0 <= x * x * (A + B)) by (repeat apply Rmult_le_pos; lra).
  match goal with |- ?l <= ?r => replace r with (l + (A * A * y + 2 * (A * x * (A + B)) + x * x * (A + B))) by ring end. lra.
Qed.

Lemma thick_mono trs : (forall t, In t trs -> path_ok (p_thickness P) t) ->
  let v := map (film_view P) trs in let v' := map (film_view P') trs in
  bad_angle P false v = false -> bad_known P false v = false -> bad_known P false v' = false ->
  c_R P false v - EPS <= c_R P false v' /\ c_T P false v' <= c_T P false v + EPS
  /\ ((forall t, In t trs -> flat 1 t) -> c_R P false v <= c_R P false v').
Proof.
  intros Hp v v' Hba K1 K2.
  assert (N : 0 < INR (length trs)).
  { destruct trs as [|t l]; [|apply lt_0_INR; cbn; lia]. exfalso. unfold bad_known in K1. rewrite Hb in K1. cbn in K1. 
    rewrite (proj2 (Reqb_true _ _)) in K1 by reflexivity. discriminate. }
  destruct (sums trs Hp Hba) as (QA & QB & QS & Qs & Q1 & Q2 & Qab & Qab' & Qd & Qfl). fold v v' in QA, QB, QS, Qs, Q1, Q2, Qab, Qab', Qd, Qfl.
  assert (Pr : forall a, In a v -> proper a).
  { intros a Ha. apply in_map_iff in Ha. destruct Ha as (t & <- & Ht). apply (pair_views t (Hp t Ht)). }
  assert (Pr' : forall a, In a v' -> proper a).
  { intros a Ha. apply in_map_iff in Ha. destruct Ha as (t & <- & Ht). apply (pair_views t (Hp t Ht)). }
  destruct (c_R_matched P n Hn Hs Hm Hf Hbk Hb Hdet Hnp v Pr) as (ER & ET & Erf & Etf & Ek).
  destruct (c_R_matched P n Hn Hs Hm Hf Hbk Hb Hdet Hnp v' Pr') as (ER' & ET' & Erf' & Etf' & Ek').
  assert (Lv : INR (length v) = INR (length trs)) by (unfold v; now rewrite map_length).
  assert (Lv' : INR (length v') = INR (length trs)) by (unfold v'; now rewrite map_length).
  rewrite ER, ET, ER', ET', Lv, Lv', <- Qd. clear ER ET ER' ET'.
  set (A := total (map (c_rw P false) v)) in *. set (B := total (map (c_tw P false) v)) in *. set (S := total (map (c_sw P false) v)) in *.
  set (A' := total (map (c_rw P false) v')) in *. set (B' := total (map (c_tw P false) v')) in *. set (S' := total (map (c_sw P false) v')) in *.
  set (ab := total (map (c_ab P false) v)) in *. set (ab' := total (map (c_ab P false) v')) in *.
  set (D := total (map (fun a => 1 - v_inc P false a) v)) in *.
  destruct cc_range as [C1 C2].
  assert (B1 : c_known P false v <> 0) by (unfold bad_known in K1; rewrite Hb in K1; now apply Reqb_false in K1).
  assert (B2 : c_known P false v' <> 0) by (unfold bad_known in K2; rewrite Hb in K2; now apply Reqb_false in K2).
  set (k := c_known P false v) in *. set (k' := c_known P false v') in *.
  assert (k0 : 0 < k) by nra. assert (k0' : 0 < k') by nra.
  assert (cA : 0 <= cc * A) by (apply Rmult_le_pos; lra). assert (cB : 0 <= cc * B) by (apply Rmult_le_pos; lra).
  assert (cA' : 0 <= cc * A') by (apply Rmult_le_pos; lra). assert (cB' : 0 <= cc * B') by (apply Rmult_le_pos; lra).
  set (rf := c_rfrac P false v) in *. set (tf := c_tfrac P false v) in *. set (rf' := c_rfrac P false v') in *. set (tf' := c_tfrac P false v') in *.
  assert (F : forall a k, 0 <= a <= k -> 0 < k -> 0 <= a / k <= 1).
  { intros a q Ha Hq. split; [apply Rmult_le_pos; [lra|left; now apply Rinv_0_lt_compat]|].
    apply (Rmult_le_reg_r q); [exact Hq|]. unfold Rdiv. rewrite Rmult_assoc, Rinv_l by lra. lra. }
  assert (F1 : 0 <= rf <= 1) by (rewrite Erf; apply F; [split; lra|exact k0]).
  assert (F2 : 0 <= tf <= 1) by (rewrite Etf; apply F; [split; lra|exact k0]).
  assert (F1' : 0 <= rf' <= 1) by (rewrite Erf'; apply F; [split; lra|exact k0']).
  assert (F2' : 0 <= tf' <= 1) by (rewrite Etf'; apply F; [split; lra|exact k0']).
  set (M := INR (length trs)) in *.
  assert (U : forall x y e, x - e * M <= y -> x / M - e <= y / M).
  { intros x y e H. apply (Rmult_le_reg_r M); [exact N|]. replace ((x / M - e) * M) with (x - e * M) by (field; lra).
    replace (y / M * M) with y by (field; lra). exact H. }
  assert (G1 : 0 <= A * rf + B * tf <= M) by (split; nra).
  assert (G1' : 0 <= A' * rf' + B' * tf') by nra.
  assert (G2 : 0 <= B * rf + A * tf) by nra.
  assert (G2' : 0 <= B' * rf' + A' * tf' <= M) by (split; nra).
  set (e1 := A * rf + B * tf) in *. set (e1' := A' * rf' + B' * tf') in *. set (e2 := B * rf + A * tf) in *. set (e2' := B' * rf' + A' * tf') in *.
  split; [|split].
  - apply U. assert ((1 - cc) * e1 <= EPS * M) by nra. assert (0 <= (1 - cc) * e1') by nra. assert (cc * A <= cc * A') by nra. lra.
  - assert (X : (cc * B' + (1 - cc) * e2' + S' / 2) / M - EPS <= (cc * B + (1 - cc) * e2 + S / 2) / M); [|lra].
    apply U. assert ((1 - cc) * e2' <= EPS * M) by nra. assert (0 <= (1 - cc) * e2) by nra.
    assert ((B - B') / 2 <= cc * (B - B')) by nra. lra.
  - intros Fl. destruct (Qfl Fl) as (Z1 & Z2 & Z3).
    assert (K3 : k = cc * (A + B)) by lra. assert (K3' : k' = cc * (A' + B')) by lra.
    assert (P1 : 0 < A + B) by nra. assert (P1' : 0 < A' + B') by nra.
    assert (E1 : e1 = A + B - 2 * (A * B / (A + B))) by (unfold e1; rewrite Erf, Etf, K3; field; lra).
    assert (E1' : e1' = A' + B' - 2 * (A' * B' / (A' + B'))) by (unfold e1'; rewrite Erf', Etf', K3'; field; lra).
    pose proof (harmonic A B (A' - A) (S' - S)) as Hh. 
    assert (HH : A' * B' / (A' + B') <= A * B / (A + B) + (A' - A)).
    { replace A' with (A + (A' - A)) at 1 by ring. replace B' with (B - (A' - A) - (S' - S)) at 1 by lra.
      replace (A' + B') with (A + B - (S' - S)) by lra. apply Hh; lra. }
    apply Rmult_le_compat_r; [left; now apply Rinv_0_lt_compat|].
    set (h := A * B / (A + B)) in *. set (h' := A' * B' / (A' + B')) in *.
    rewrite E1, E1'. assert ((1 - cc) * (h' - h) <= (1 - cc) * (A' - A)) by nra.
    assert (cc * (A' - A) - 2 * ((1 - cc) * (A' - A)) >= 0) by nra.
    assert ((S' - S) / 2 - (1 - cc) * (S' - S) >= 0) by nra. nra.
Qed.
End Two.
