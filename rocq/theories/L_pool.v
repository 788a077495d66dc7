(** Pooling trajectories (C151): sums over a joined list. *)
From Coq Require Import Lra Lia Psatz.
From Verif Require Import Num Spec Spec_detector Spec_meta L_num L_weights L_slots L_conserve L_outcomes L_meta L_meta3 L_meta4 M_detector Properties_meta.
Open Scope R_scope.

Lemma total_app' l m : total (l ++ m) = total l + total m.
Proof. induction l as [|a l IH]; cbn; lra. Qed.
Lemma total_map_app {A} (f : A -> R) l m : total (map f (l ++ m)) = total (map f l) + total (map f m).
Proof. rewrite map_app. apply total_app'. Qed.
Lemma total_map_plus' {A} (f g : A -> R) l : total (map (fun a => f a + g a) l) = total (map f l) + total (map g l).
Proof. induction l as [|a l IH]; cbn; lra. Qed.
Lemma total_map_times {A} (f : A -> R) c l : total (map (fun a => f a * c) l) = total (map f l) * c.
Proof. induction l as [|a l IH]; cbn; lra. Qed.

(** The whole outcome, not only its two numbers: the reflected-back light. *)
Lemma fresnel_closed P ft v o : p_kz0rot P = None -> p_kz0refl P = None ->
  view_result P ft v = Ok (Some o) ->
  o_refl_fresnel o = map (fun a => c_rf P ft a / INR (length v)) v
  /\ o_trans_fresnel o = map (fun a => c_tf P ft a / INR (length v)) v.
Proof.
  intros Hk1 Hk2. unfold view_result. rewrite Hk1, Hk2, enter_closed by assumption.
  destruct (bad_in P ft v); [discriminate|].
  destruct (negb ft && existsb past (map (fun a => nan_to_num (v_in P a)) v)); [discriminate|]. cbn [bind].
  rewrite exit_closed.
  destruct (existsb past (map v_ar v) || existsb past (map v_at v)); [discriminate|].
  cbn [bind x_refl_pass x_trans_pass x_refl_fresnel x_trans_fresnel x_refl_frac x_trans_frac].
  destruct (distribute_ambig_traj_weights _ _ _ _ _ _ _ _ _ _ _ _) as [[[[r t] rp] tp]|]; [|discriminate].
  intros H. assert (E : forall a b : outcome, @Ok (option outcome) (Some a) = Ok (Some b) -> a = b) by (intros a b Hab; congruence).
  apply E in H. rewrite <- H. cbn [o_refl_fresnel o_trans_fresnel]. rewrite !map_map. split; reflexivity.
Qed.

Section Pool.
Variables (P : params) (ft : bool).
Hypothesis Hm : 0 < p_nmedium P.
Hypothesis Ht : 0 < choose_n_tir P.
Hypothesis Hf : forall m, p_nfront P = Some m -> 0 < m.
Hypothesis Hb : forall m, p_nback P = Some m -> 0 < m.

Definition seen (v : list view) : Prop :=
  bad_angle P ft v = false /\ forall a, In a v -> wview a /\ c_dr P ft a = c_rp P ft a /\ c_dt P ft a = c_tp P ft a.

(** What does not depend on the other trajectories. *)
Definition own_r (a : view) : R := c_rp P ft a + c_sw P ft a * (1 / 2) + c_di P ft a.
Definition own_t (a : view) : R := c_tp P ft a + c_sw P ft a * (1 / 2).
Definition back_r v := total (map (c_rf P ft) v).
Definition back_t v := total (map (c_tf P ft) v).
Definition shared_r v := match p_boundary P with
  | film => back_r v * c_rfrac P ft v + back_t v * c_tfrac P ft v
  | sphere => 1 / 2 * (back_r v + back_t v) end.
Definition shared_t v := match p_boundary P with
  | film => back_t v * c_rfrac P ft v + back_r v * c_tfrac P ft v
  | sphere => 1 / 2 * (back_r v + back_t v) end.

Lemma unit_frac x : Rmax x EPS / Rmax x EPS = 1.
Proof.
  assert (0 < Rmax x EPS); [|field; lra]. apply Rlt_le_trans with EPS; [|apply Rmax_r].
  unfold EPS. apply Rinv_0_lt_compat, pow_lt. lra.
Qed.

Lemma R_split v : (0 < length v)%nat -> seen v ->
  INR (length v) * c_R P ft v = total (map own_r v) + shared_r v
  /\ INR (length v) * c_T P ft v = total (map own_t v) + shared_t v.
Proof.
  intros Hl [_ Hv]. assert (HN : 0 < INR (length v)) by (apply lt_0_INR; lia).
  assert (D1 : c_rdf P ft v = 1).
  { unfold c_rdf. replace (map (c_dr P ft) v) with (map (c_rp P ft) v); [apply unit_frac|].
    apply map_ext_in. intros a Ha. symmetry. apply Hv, Ha. }
  assert (D2 : c_tdf P ft v = 1).
  { unfold c_tdf. replace (map (c_dt P ft) v) with (map (c_tp P ft) v); [apply unit_frac|].
    apply map_ext_in. intros a Ha. symmetry. apply Hv, Ha. }
  assert (E : forall g N, 0 < N -> N * total (map (fun a : view => g a / N) v) = total (map g v)).
  { intros g N H. unfold Rdiv. rewrite (total_map_times g). field. lra. }
  unfold c_R, c_T. rewrite !(E (fun a => _)) by exact HN. clear E. rewrite D1, D2.
  split.
  - transitivity (total (map (fun a => own_r a + match p_boundary P with
      | film => c_rf P ft a * c_rfrac P ft v + c_tf P ft a * c_tfrac P ft v | sphere => c_rf P ft a * (1 / 2) + c_tf P ft a * (1 / 2) end) v)).
    + apply (f_equal total). apply map_ext_in. intros a Ha. destruct (Hv a Ha) as (_ & A & _). rewrite A. unfold c_er, own_r.
      destruct (p_boundary P); field.
    + rewrite total_map_plus'. f_equal. unfold shared_r, back_r, back_t. destruct (p_boundary P); rewrite total_map_plus', !total_map_times; ring.
  - transitivity (total (map (fun a => own_t a + match p_boundary P with
      | film => c_tf P ft a * c_rfrac P ft v + c_rf P ft a * c_tfrac P ft v | sphere => c_tf P ft a * (1 / 2) + c_rf P ft a * (1 / 2) end) v)).
    + apply (f_equal total). apply map_ext_in. intros a Ha. destruct (Hv a Ha) as (_ & _ & A). rewrite A. unfold c_et, own_t.
      destruct (p_boundary P); field.
    + rewrite total_map_plus'. f_equal. unfold shared_t, back_r, back_t. destruct (p_boundary P); rewrite total_map_plus', !total_map_times; ring.
Qed.

Lemma back_nonneg v : seen v -> 0 <= back_r v /\ 0 <= back_t v.
Proof.
  intros [B Hv]. split; apply total_nonneg_map; intros a Ha; destruct (Hv a Ha) as (W & _);
  destruct (c_range P ft v Hm Ht Hf Hb B a Ha W) as (_ & _ & X & Y & _); assumption.
Qed.

Lemma fracs_range v : seen v -> c_known P ft v <> 0 ->
  0 <= c_rfrac P ft v /\ 0 <= c_tfrac P ft v /\ c_rfrac P ft v + c_tfrac P ft v <= 1.
Proof.
  intros [B Hv] Hk.
  assert (K : 0 < c_known P ft v).
  { pose proof (c_known_nonneg P ft v Hm Ht Hf Hb B (fun a Ha => proj1 (Hv a Ha))). lra. }
  assert (X : 0 <= total (map (c_rp P ft) v) /\ 0 <= total (map (c_tp P ft) v) /\ total (map (c_rp P ft) v) + total (map (c_tp P ft) v) <= c_known P ft v).
  { split; [|split]; [apply total_nonneg_map; intros a Ha; apply (c_range P ft v Hm Ht Hf Hb B a Ha (proj1 (Hv a Ha)))..|].
    rewrite <- total_map_plus'. unfold c_known. destruct ft eqn:Eft.
    - replace (INR (length v)) with (total (map (fun _ : view => 1) v)).
      2:{ clear. induction v as [|a v IH]; [reflexivity|]. cbn [map total length]. rewrite S_INR, IH. lra. }
      apply total_le_map. intros a Ha. destruct (Hv a Ha) as (W & _).
      destruct (c_range P true v Hm Ht Hf Hb B a Ha W) as (_ & _ & X & Y & Z & T & _).
      pose proof (inc_range P true v Hm Ht Hf B a Ha W). unfold c_ab in T. unfold c_rf, c_tf in X, Y. lra.
    - apply total_le_map. intros a Ha. destruct (Hv a Ha) as (W & _).
      destruct (c_range P false v Hm Ht Hf Hb B a Ha W) as (_ & _ & X & Y & Z & T & _). lra. }
  destruct X as (X1 & X2 & X3). unfold c_rfrac, c_tfrac.
  split; [apply Rle_div_nonneg || (apply Rmult_le_pos; [lra|left; apply Rinv_0_lt_compat; lra])|].
  split; [apply Rmult_le_pos; [lra|left; apply Rinv_0_lt_compat; lra]|].
  apply Rmult_le_reg_r with (c_known P ft v); [lra|]. field_simplify; lra.
Qed.

Lemma shared_range v : seen v -> bad_known P ft v = false ->
  0 <= shared_r v <= back_r v + back_t v /\ 0 <= shared_t v <= back_r v + back_t v.
Proof.
  intros Hv Hk. destruct (back_nonneg v Hv) as [A1 A2]. unfold shared_r, shared_t. unfold bad_known in Hk.
  destruct (p_boundary P); [|split; lra]. apply Reqb_false in Hk. destruct (fracs_range v Hv Hk) as (F1 & F2 & F3).
  set (x := c_rfrac P ft v) in *. set (y := c_tfrac P ft v) in *. set (r := back_r v) in *. set (t := back_t v) in *.
  repeat split; nra.
Qed.

Lemma seen_app v w : seen v -> seen w -> seen (v ++ w).
Proof.
  intros [A1 A2] [B1 B2]. split.
  - unfold bad_angle in *. rewrite !map_app, !existsb_app.
    destruct (negb ft); cbn [andb orb] in *;
    repeat match goal with |- context [existsb past ?l] => destruct (existsb past l); cbn [orb] in *; try discriminate end; reflexivity.
  - intros a Ha. apply in_app_iff in Ha. destruct Ha; auto.
Qed.

Lemma back_app v w : back_r (v ++ w) = back_r v + back_r w /\ back_t (v ++ w) = back_t v + back_t w.
Proof. split; apply total_map_app. Qed.

Lemma bad_in_app v w : bad_in P ft v = false -> bad_in P ft w = false -> bad_in P ft (v ++ w) = false.
Proof. unfold bad_in. rewrite map_app, existsb_app. destruct (negb ft); cbn [andb]; [|auto]. intros A B. now apply orb_false_intro. Qed.

Lemma known_app v w : c_known P ft (v ++ w) = c_known P ft v + c_known P ft w.
Proof. unfold c_known. destruct ft; [now rewrite app_length, plus_INR|apply total_map_app]. Qed.

Lemma bad_known_app v w : seen v -> seen w -> bad_known P ft v = false -> bad_known P ft w = false -> bad_known P ft (v ++ w) = false.
Proof.
  unfold bad_known. intros [A1 A2] [B1 B2]. destruct (p_boundary P); [|auto]. rewrite !Reqb_false, known_app.
  pose proof (c_known_nonneg P ft v Hm Ht Hf Hb A1 (fun a Ha => proj1 (A2 a Ha))).
  pose proof (c_known_nonneg P ft w Hm Ht Hf Hb B1 (fun a Ha => proj1 (B2 a Ha))). lra.
Qed.
End Pool.
