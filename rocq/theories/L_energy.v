(** Energy bounds and conservation of calc_refl_trans (C29, C31, C32, C34). *)
From Coq Require Import Lra Lia Psatz.
From Verif Require Export L_accounting.
Open Scope R_scope.

(* ------------------------------------------------------------------ *)
(** * shift_traj_tir keeps lengths *)

Lemma preset_length col ev : length (preset col ev) = length col.
Proof. unfold preset. rewrite map_length, combine_length, seq_length. lia. Qed.
Lemma tir_loop_length col : forall prev out, length out = length col ->
  length (tir_loop prev col out) = length col.
Proof.
  induction col as [|x col IH]; intros prev [|o out] H; cbn in *; try lia.
  rewrite IH; lia.
Qed.
Lemma select_tir_length col ev : length (select_tir_traj col ev) = length col.
Proof.
  unfold select_tir_traj. pose proof (preset_length col ev) as H.
  destruct col as [|x col]; [reflexivity|]. destruct (preset (x :: col) ev) as [|o out]; [discriminate|].
  cbn in *. rewrite tir_loop_length; lia.
Qed.
Lemma sl_tr_pos P T i : length (t_pos (sl_tr P T i)) = length (t_pos (T i)).
Proof.
  unfold sl_tr. destruct (p_gonio P); [|reflexivity]. cbn.
  rewrite map2_length, select_tir_length, map_length. lia.
Qed.

(* ------------------------------------------------------------------ *)
(** * Re-run trajectories *)

Lemma combine_maps {A B C} (f : A -> B) (g : A -> C) l :
  combine (map f l) (map g l) = map (fun a => (f a, g a)) l.
Proof. induction l as [|a l IH]; cbn; congruence. Qed.

Lemma rerun_all_slots radius mu angs steps (tr : nat -> traj) (idx : nat -> nat) (w : nat -> R) :
  forall m k trs',
  rerun_all radius mu angs steps k (map (fun i => (tr i, idx i, w i)) (seq k m)) = Ok trs' ->
  exists T', trs' = map T' (seq k m)
    /\ forall i, (k <= i < k + m)%nat ->
         rerun_traj radius mu angs steps i (tr i) (idx i) (w i) = Ok (T' i).
Proof.
  induction m as [|m IH]; intros k trs' H; cbn in H.
  - inversion H. exists (fun _ => tdummy). split; [reflexivity|]. intros; lia.
  - destruct (rerun_traj radius mu angs steps k (tr k) (idx k) (w k)) as [t|e] eqn:E; [|discriminate].
    cbn in H. destruct (rerun_all _ _ _ _ _ _) as [ts|e] eqn:E2; [|discriminate]. cbn in H.
    inversion H; subst trs'. destruct (IH (S k) ts E2) as [T' [-> HT]].
    exists (fun i => if Nat.eqb i k then t else T' i). split.
    + cbn. rewrite Nat.eqb_refl. f_equal. apply map_ext_in. intros i Hi. apply in_seq in Hi.
      replace (Nat.eqb i k) with false; [reflexivity|]. symmetry. apply Nat.eqb_neq. lia.
    + intros i Hi. destruct (Nat.eqb_spec i k) as [->|Hne]; [exact E|]. apply HT. lia.
Qed.

Lemma rerun_traj_wf radius mu angs steps i t idx w t' :
  (0 < length (t_pos t))%nat ->
  rerun_traj radius mu angs steps i t idx w = Ok t' ->
  wf_len t' /\ length (t_dir t') = length (t_pos t)
  /\ t_w t' = absorb mu (repeat w (length (t_pos t))) (map (steps i) (seq 0 (length (t_pos t)))).
Proof.
  intros Hp H. unfold rerun_traj in H.
  destruct (Nat.ltb _ _); [discriminate|].
  destruct (inf_to_large _ _ _) as [p0 p1]. cbv zeta in H.
  match type of H with bind (scatter (?k :: ?r) ?a) _ = _ =>
    destruct (scatter (k :: r) a) as [dirs|e] eqn:E; [|discriminate] end.
  cbn [bind] in H.
  match type of H with Ok (mk_traj ?a ?b ?c) = _ => assert (Ht' : t' = mk_traj a b c) by congruence end.
  subst t'. clear H.
  apply scatter_keeps_length in E as (_ & El & _). rewrite repeat_length in El.
  unfold wf_len. cbn [t_pos t_dir t_w].
  assert (Hd : length dirs = length (map (steps i) (seq 0 (length (t_pos t))))).
  { rewrite map_length, seq_length. lia. }
  rewrite move_length by exact Hd. rewrite absorb_length by (rewrite repeat_length, map_length, seq_length; reflexivity).
  rewrite !map_length, !seq_length in *. repeat split; lia.
Qed.

Lemma rerun_traj_col radius mu angs steps i t idx w t' :
  (0 < length (t_pos t))%nat -> 0 <= w -> 0 <= mu -> (forall k, 0 <= steps i k) ->
  rerun_traj radius mu angs steps i t idx w = Ok t' ->
  col_ok w t' /\ (mu = 0 -> t_w t' = repeat w (length (t_dir t'))).
Proof.
  intros Hp Hw Hmu Hst H. destruct (rerun_traj_wf _ _ _ _ _ _ _ _ _ Hp H) as (Hwf & Hl & Ht).
  split.
  - split; [exact Hwf|]. apply Forall_forall. intros x Hx.
    destruct (In_nth _ _ 0 Hx) as [k [Hk <-]]. destruct Hwf as (_ & Hw2 & _).
    rewrite Ht.
    set (s := map (steps i) (seq 0 (length (t_pos t)))).
    replace (length (t_pos t)) with (length s) at 1 2 by (unfold s; now rewrite map_length, seq_length).
    apply absorb_bounds; auto.
    + unfold s. apply Forall_map, Forall_forall. intros; apply Hst.
    + unfold s. rewrite map_length, seq_length. lia.
  - intros ->. rewrite Ht, absorb_zero, Hl; [reflexivity|].
    now rewrite repeat_length, map_length, seq_length.
Qed.

(* ------------------------------------------------------------------ *)
(** * The main induction *)

Lemma nested_good P n m : good_params P n -> good_params (nested_params P) m.
Proof.
  intros (Hm & Hs & _). unfold good_params, nested_params, choose_n_tir; cbn.
  assert (0 < Rabs (p_nsample P)) by (apply Rabs_pos_lt, Hs).
  rewrite (Rabs_pos_eq (Rabs (p_nsample P))) by lra.
  repeat split; intros; try discriminate; try lra; try assumption.
Qed.

Lemma sum_slots {A} (f : A -> R) l c : (forall a, In a l -> f a <= c) -> total (map f l) <= c * INR (length l).
Proof.
  intros H. rewrite <- total_map_const. apply total_map_le. exact H.
Qed.

Definition per_slot_ok (n : nat) (W : nat -> R) (inc : nat -> R) (o : outcome) : Prop :=
  exists r t, o_refl_per o = map r (seq 0 n) /\ o_trans_per o = map t (seq 0 n)
    /\ o_refl o = total (map r (seq 0 n)) /\ o_trans o = total (map t (seq 0 n))
    /\ forall i, (i < n)%nat -> 0 <= r i /\ 0 <= t i
         /\ r i + t i <= (inc i * W i + (1 - inc i)) / INR n.

Lemma crt_bounds fuel : forall angs steps P ft d n T W o,
  (0 < n)%nat -> good_params P n -> (p_boundary P = film \/ p_gonio P = None) ->
  0 <= p_muabs P -> (forall e i k, 0 <= steps e i k) ->
  (forall i, (i < n)%nat -> 0 <= W i <= 1 /\ col_ok (W i) (T i)) ->
  calc_refl_trans fuel angs steps P ft d (map T (seq 0 n)) = Ok (Some o) ->
  exists inc, inc_ok ft n inc /\ per_slot_ok n W inc o.
Proof.
  induction fuel as [|fuel IH]; intros angs steps P ft d n T W o Hn Hg Hb Hmu Hst HW H;
    [discriminate|]. cbn [calc_refl_trans] in H.
  destruct (first_pass P ft (map T (seq 0 n))) as [[q|]|e] eqn:Eq; [|discriminate|discriminate].
  cbn [bind] in H.
  destruct (first_pass_slots P ft n T q Hg Eq) as (inc & di & Hinc & Hdi & -> & Har & Hat).
  exists inc. split; [exact Hinc|].
  assert (HB : forall i, (i < n)%nat -> _) by
    (intros i Hi; exact (slot_bounds P ft n T inc Hg Hinc Har Hat (W i) i Hi (proj1 (proj1 (HW i Hi))) (proj2 (HW i Hi)))).
  assert (HD : forall i, (i < n)%nat -> _) by
    (intros i Hi; exact (slot_det P n T inc i Hi (proj1 (proj1 (proj2 (proj2 (proj2 (proj2 (HB i Hi))))))) (proj1 (proj1 (proj2 (proj2 (proj2 (proj2 (proj2 (HB i Hi))))))))) ).
  cbv beta in HB, HD.
  assert (HI : 0 < INR n) by (apply lt_0_INR; lia).
  assert (Hdi2 : forall i, (i < n)%nat -> 0 <= di i <= 1 - inc i).
  { intros i Hi. destruct (Hinc i Hi) as [Hin _]. destruct Hdi as [Hdi _].
    destruct (Hdi i Hi) as [-> | ->]; lra. }
  rewrite map_length, seq_length in H.
  set (RW := sl_rw P T inc) in *. set (TW := sl_tw P T inc) in *. set (SW := sl_sw P T inc) in *.
  set (RP := sl_rp P T inc) in *. set (TP := sl_tp P T inc) in *.
  set (RF := sl_rf P T inc) in *. set (TF := sl_tf P T inc) in *.
  set (DR := sl_dr P T inc) in *. set (DT := sl_dt P T inc) in *.
  assert (Hsplit : forall i, RP i + RF i = RW i /\ TP i + TF i = TW i).
  { intros i. unfold RP, RF, RW, TP, TF, TW, sl_rf, sl_tf. lra. }
  destruct (p_run P && Nat.ltb d (p_maxdepth P) && Rltb (p_maxstuck P) _) eqn:Erun.
  - (* re-run *)
    unfold sl_pass in H. cbn [q_exit q_refl_det q_inc_refl_det q_trans_det q_stuck q_refl_i q_trans_i q_tir_i q_trs
       sl_exit x_refl_fresnel x_trans_fresnel] in H.
    rewrite !map2_maps, !map_map, !combine_maps in H.
    destruct (rerun_all _ _ _ _ _ _) as [trs'|e] eqn:Er; [|discriminate]. cbn [bind] in H.
    destruct (rerun_all_slots _ _ _ _ _ _ _ _ _ _ Er) as [T' [-> HT']].
    destruct (calc_refl_trans fuel _ _ _ _ _ _) as [[o'|]|e] eqn:Ec; [|discriminate|discriminate].
    cbn [bind] in H. inversion H; subst o; clear H.
    pose proof (IH angs steps (nested_params P) true (S d) n T'
       (fun i => sl_rf P T inc i + sl_tf P T inc i + sl_sw P T inc i) o' Hn (nested_good P n n Hg)
       (or_intror eq_refl) Hmu Hst) as IH'.
    destruct IH' as (inc' & Hinc' & r' & t' & Er' & Et' & ER' & ET' & Hrt').
    + intros i Hi. destruct (HB i Hi) as (B1 & B2 & B3 & B4 & B5 & B6 & B7 & B8).
      destruct (Hinc i Hi) as [Hin _]. destruct (HW i Hi) as [HWi [Hwf _]].
      destruct (Hsplit i) as [S1 S2]. fold RF TF SW.
      assert (inc i * W i <= 1) by nra.
      split; [lra|].
      eapply rerun_traj_col; [| | exact Hmu | intros; apply Hst | apply (HT' i); lia].
      * rewrite sl_tr_pos. destruct Hwf as [-> _]. lia.
      * fold RF TF SW. lra.
    + exact Ec.
    + unfold per_slot_ok, make_outcome. cbn [o_refl_per o_trans_per o_refl o_trans].
      exists (fun i => r' i + (DR i + di i) / INR n), (fun i => t' i + DT i / INR n).
      split; [rewrite Er', map2_maps; reflexivity|]. split; [rewrite Et', map2_maps; reflexivity|].
      split; [rewrite ER', total_map_plus; f_equal; apply Rsum_total|].
      split; [rewrite ET', total_map_plus; f_equal; apply Rsum_total|].
      intros i Hi. destruct (Hrt' i Hi) as (Q1 & Q2 & Q3).
      destruct (HD i Hi) as [D1 D2]. specialize (Hdi2 i Hi).
      destruct (Hinc' i Hi) as [_ Hinc1]. rewrite (Hinc1 eq_refl) in Q3.
      destruct (HB i Hi) as (B1 & B2 & B3 & B4 & B5 & B6 & B7 & B8). destruct (Hsplit i) as [S1 S2].
      assert (0 < / INR n) by (apply Rinv_0_lt_compat, HI).
      assert (Z1 : 0 <= (DR i + di i) / INR n) by (apply Rmult_le_pos; lra).
      assert (Z2 : 0 <= DT i / INR n) by (apply Rmult_le_pos; lra).
      split; [lra|]. split; [lra|].
      apply Rle_trans with ((1 * (RF i + TF i + SW i) + (1 - 1)) / INR n + (DR i + di i) / INR n + DT i / INR n).
      * unfold RF, TF, SW. lra.
      * unfold Rdiv. rewrite <- !Rmult_plus_distr_r. apply Rmult_le_compat_r; lra.
  - (* distribute *)
    unfold sl_pass in H. cbn [q_exit q_refl_det q_inc_refl_det q_trans_det q_stuck q_refl_i q_trans_i q_tir_i q_trs
       sl_exit x_refl_fresnel x_trans_fresnel x_refl_frac x_trans_frac q_refl_det_frac q_trans_det_frac] in H.
    destruct (distribute_ambig_traj_weights _ _ _ _ _ _ _ _ _ _ _ _) as [[[[R0 T0] rp] tp]|] eqn:Ed; [|discriminate].
    inversion H; subst o; clear H.
    assert (Hsum : forall (f g : nat -> R), (forall i, (i < n)%nat -> 0 <= f i <= g i) ->
              0 <= total (map f (seq 0 n)) <= total (map g (seq 0 n))).
    { intros f g Hfg. split.
      - apply total_map_nonneg. intros i Hi. apply in_seq in Hi. apply Hfg; lia.
      - apply total_map_le. intros i Hi. apply in_seq in Hi. apply Hfg; lia. }
    eapply distribute_bounds in Ed as (r & t & -> & -> & -> & -> & Hrt).
    + exists r, t. cbn. repeat split; try reflexivity; try apply (Hrt i H).
      destruct (Hrt i H) as (_ & _ & Q). eapply Rle_trans; [exact Q|].
      destruct (HB i H) as (B1 & B2 & B3 & B4 & B5 & B6 & B7 & B8).
      destruct (HD i H) as [D1 D2]. specialize (Hdi2 i H). destruct (Hsplit i) as [S1 S2].
      unfold Rdiv. apply Rmult_le_compat_r; [apply Rlt_le, Rinv_0_lt_compat, HI|].
      fold RF TF SW DR DT. lra.
    + exact Hn.
    + intros i Hi. destruct (HB i Hi) as (B1 & B2 & B3 & B4 & B5 & B6 & B7 & B8).
      destruct (HD i Hi) as [D1 D2]. specialize (Hdi2 i Hi). fold RF TF SW DR DT. lra.
    + assert (0 < det_frac (map DR (seq 0 n)) (map RP (seq 0 n)) <= 1); [|fold DR RP; lra].
      apply det_frac_range, Hsum. intros i Hi. exact (proj1 (HD i Hi)).
    + assert (0 < det_frac (map DT (seq 0 n)) (map TP (seq 0 n)) <= 1); [|fold DT TP; lra].
      apply det_frac_range, Hsum. intros i Hi. exact (proj2 (HD i Hi)).
    + intros x y Ex Ey. apply ndiv_some in Ex as [Hk ->]. apply ndiv_some in Ey as [_ ->].
      fold RP TP. 
      assert (HRP : 0 <= total (map RP (seq 0 n))) by (apply (Hsum RP RP); intros i Hi; destruct (HB i Hi) as (B1 & B2 & B3 & B4 & B5 & B6 & B7 & B8); lra).
      assert (HTP : 0 <= total (map TP (seq 0 n))) by (apply (Hsum TP TP); intros i Hi; destruct (HB i Hi) as (B1 & B2 & B3 & B4 & B5 & B6 & B7 & B8); lra).
      assert (HK : total (map RP (seq 0 n)) + total (map TP (seq 0 n)) <= sl_known P ft n T inc).
      { unfold sl_known. rewrite <- total_map_plus. destruct ft.
        - eapply Rle_trans; [apply (sum_slots _ _ 1)|rewrite seq_length; lra].
          intros i Hi. apply in_seq in Hi. assert (Hi' : (i < n)%nat) by lia.
          destruct (HB i Hi') as (B1 & B2 & B3 & B4 & B5 & B6 & B7 & B8).
          destruct (HW i Hi') as [HWi _]. destruct (Hinc i Hi') as [Hin _].
          assert (inc i * W i <= 1) by nra. lra.
        - fold RP TP. apply total_map_le.
          intros i Hi. apply in_seq in Hi. assert (Hi' : (i < n)%nat) by lia.
          destruct (HB i Hi') as (B1 & B2 & B3 & B4 & B5 & B6 & B7 & B8).
          destruct (HW i Hi') as [HWi _]. destruct (Hinc i Hi') as [Hin _].
          assert (inc i * W i <= inc i) by nra. unfold sl_ab. fold RW TW SW. lra. }
      set (K := sl_known P ft n T inc) in *.
      assert (HK0 : 0 < K) by lra.
      assert (0 < / K) by (apply Rinv_0_lt_compat, HK0).
      split; [apply Rmult_le_pos; lra|]. split; [apply Rmult_le_pos; lra|].
      rewrite <- Rdiv_plus_distr. apply (Rmult_le_reg_r K); [exact HK0|].
      unfold Rdiv. rewrite Rmult_assoc, Rinv_l by lra. lra.
    + destruct Hb as [Hb|Hb]; [now left|right]. now rewrite Hb.
Qed.
