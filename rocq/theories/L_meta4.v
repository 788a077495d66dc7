(** Order of the trajectories, absorption, aperture (C135-C137). *)
From Coq Require Import Lra Lia Psatz Permutation.
From Verif Require Import L_outcomes L_meta L_meta3 Spec_meta Properties_returned.
Open Scope R_scope.

Lemma total_perm l m : Permutation l m -> total l = total m.
Proof. induction 1; cbn; lra. Qed.
Lemma existsb_perm {A} (f : A -> bool) l m : Permutation l m -> existsb f l = existsb f m.
Proof.
  induction 1 as [|x l m _ IH|x y l|l m k _ IH1 _ IH2]; cbn; [reflexivity|now rewrite IH| |congruence].
  destruct (f x), (f y); reflexivity.
Qed.

Lemma answer_perm P ft v v' : p_kz0rot P = None -> p_kz0refl P = None -> Permutation v v' ->
  answer (view_result P ft v) = answer (view_result P ft v').
Proof.
  intros H1 H2 Hp. rewrite !answer_closed by assumption.
  assert (Hm : forall f : view -> R, total (map f v) = total (map f v')) by (intros f; apply total_perm, Permutation_map, Hp).
  assert (El : length v = length v') by (apply Permutation_length, Hp).
  assert (Ek : c_known P ft v = c_known P ft v') by (unfold c_known; rewrite El, Hm; reflexivity).
  assert (Er : c_rfrac P ft v = c_rfrac P ft v') by (unfold c_rfrac; rewrite Hm, Ek; reflexivity).
  assert (Et : c_tfrac P ft v = c_tfrac P ft v') by (unfold c_tfrac; rewrite Hm, Ek; reflexivity).
  assert (Ed : c_rdf P ft v = c_rdf P ft v') by (unfold c_rdf; rewrite !Hm; reflexivity).
  assert (Ef : c_tdf P ft v = c_tdf P ft v') by (unfold c_tdf; rewrite !Hm; reflexivity).
  assert (B1 : bad_in P ft v = bad_in P ft v').
  { unfold bad_in. f_equal. apply existsb_perm, Permutation_map, Hp. }
  assert (B2 : bad_angle P ft v = bad_angle P ft v').
  { unfold bad_angle. f_equal; [f_equal; [f_equal|]|]; apply existsb_perm, Permutation_map, Hp. }
  assert (B3 : bad_known P ft v = bad_known P ft v') by (unfold bad_known; rewrite Ek; reflexivity).
  assert (Rr : c_R P ft v = c_R P ft v').
  { unfold c_R. rewrite Hm, El, Ed. f_equal. apply map_ext. intros a. unfold c_er. rewrite Er, Et. reflexivity. }
  assert (Tt : c_T P ft v = c_T P ft v').
  { unfold c_T. rewrite Hm, El, Ef. f_equal. apply map_ext. intros a. unfold c_et. rewrite Er, Et. reflexivity. }
  rewrite B1, B2, B3, Rr, Tt. reflexivity.
Qed.

(** Ranges. *)
Lemma total_le_map {A} (f g : A -> R) l : (forall a, In a l -> f a <= g a) -> total (map f l) <= total (map g l).
Proof.
  induction l as [|a l IH]; cbn; intros H; [lra|]. apply Rplus_le_compat; [apply H; now left|apply IH; intros; apply H; now right].
Qed.
Lemma total_nonneg_map {A} (f : A -> R) l : (forall a, In a l -> 0 <= f a) -> 0 <= total (map f l).
Proof. induction l as [|a l IH]; cbn; intros H; [lra|]. apply Rplus_le_le_0_compat; [apply H; now left|apply IH; intros; apply H; now right]. Qed.

Definition wview (a : view) : Prop :=
  0 <= v_wr a /\ 0 <= v_wt a /\ 0 <= v_ws a /\ v_wr a + v_wt a + v_ws a <= 1
  /\ 0 <= v_ar a /\ 0 <= v_at a /\ 0 <= v_ae a.

Lemma film_view_ok P t : p_gonio P = None -> col_ok 1 t -> wview (film_view P t).
Proof.
  intros Hg Hc. destruct (sel_bounds P (fun _ => t) 1 0 ltac:(lra) Hc) as (A & B & C & D).
  unfold sl_ri, sl_ti, sl_si in *. rewrite Hg in *.
  assert (E : sl_tr P (fun _ => t) 0 = t) by (unfold sl_tr; rewrite Hg; reflexivity). rewrite E in *.
  unfold wview, film_view. cbn [v_wr v_wt v_ws v_ar v_at v_ae].
  repeat split; try assumption; try (apply (L_slots.exit_angle_nonneg P)).
  destruct (p_boundary P); [lra|]. unfold sphere_entry_angle, sphere_angle_norm. apply acos_nonneg.
Qed.

Section Range.
Variables (P : params) (ft : bool) (v : list view).
Hypothesis Hm : 0 < p_nmedium P.
Hypothesis Ht : 0 < choose_n_tir P.
Hypothesis Hf : forall m, p_nfront P = Some m -> 0 < m.
Hypothesis Hb : forall m, p_nback P = Some m -> 0 < m.
Hypothesis Hbad2 : bad_angle P ft v = false.

Lemma not_past f a : existsb past (map f v) = false -> In a v -> f a <= PI / 2.
Proof.
  intros H Ha. destruct (past (f a)) eqn:E.
  - rewrite (proj2 (existsb_exists past (map f v))) in H; [discriminate|]. exists (f a). split; [now apply in_map|exact E].
  - apply Rltb_false in E. exact E.
Qed.

Lemma inc_range a : In a v -> wview a -> 0 <= v_inc P ft a <= 1.
Proof.
  intros Ha Hw. unfold v_inc. destruct ft; [lra|].
  unfold bad_angle in Hbad2. cbn [negb andb] in Hbad2. apply orb_false_elim in Hbad2. destruct Hbad2 as [B _].
  apply orb_false_elim in B. destruct B as [B _].
  pose proof (not_past (fun a => nan_to_num (v_in P a)) a B Ha) as H.
  assert (H0 : 0 <= nan_to_num (v_in P a)).
  { unfold v_in. destruct (p_boundary P); [|apply Hw]. destruct (refraction _ _ _); cbn; [apply acos_nonneg|lra]. }
  pose proof (pf1_bounds (p_nmedium P) (p_nfront P) (choose_n_tir P) (nan_to_num (v_in P a)) Hm Hf Ht (conj H0 H)). lra.
Qed.

Lemma pass_range a : In a v -> wview a ->
  0 <= pf1 (choose_n_tir P) (p_nfront P) (p_nmedium P) (v_ar a) <= 1
  /\ 0 <= pf1 (choose_n_tir P) (p_nback P) (p_nmedium P) (v_at a) <= 1.
Proof.
  intros Ha Hw. unfold bad_angle in Hbad2. apply orb_false_elim in Hbad2. destruct Hbad2 as [B B2].
  apply orb_false_elim in B. destruct B as [_ B1].
  pose proof (not_past v_ar a B1 Ha) as H1. pose proof (not_past v_at a B2 Ha) as H2.
  destruct Hw as (_ & _ & _ & _ & A1 & A2 & _).
  pose proof (pf1_bounds _ _ _ _ Ht Hf Hm (conj A1 H1)). pose proof (pf1_bounds _ _ _ _ Ht Hb Hm (conj A2 H2)). lra.
Qed.

Lemma c_range a : In a v -> wview a ->
  0 <= c_rp P ft a /\ 0 <= c_tp P ft a /\ 0 <= c_rf P ft a /\ 0 <= c_tf P ft a /\ 0 <= c_sw P ft a
  /\ 0 <= c_ab P ft a /\ 0 <= c_di P ft a.
Proof.
  intros Ha Hw. pose proof (inc_range a Ha Hw) as Hi. destruct (pass_range a Ha Hw) as [Q1 Q2].
  destruct Hw as (W1 & W2 & W3 & W4 & _).
  unfold c_rp, c_tp, c_rf, c_tf, c_sw, c_ab, c_rw, c_tw, c_rp, c_tp, c_rw, c_tw.
  set (i := v_inc P ft a) in *. set (x := pf1 _ (p_nfront P) _ _) in *. set (y := pf1 _ (p_nback P) _ _) in *.
  assert (R1 : 0 <= i * v_wr a) by (apply Rmult_le_pos; lra). assert (R2 : 0 <= i * v_wt a) by (apply Rmult_le_pos; lra).
  split; [apply Rmult_le_pos; lra|]. split; [apply Rmult_le_pos; lra|].
  split; [replace (i * v_wr a - i * v_wr a * x) with (i * v_wr a * (1 - x)) by ring; apply Rmult_le_pos; lra|].
  split; [replace (i * v_wt a - i * v_wt a * y) with (i * v_wt a * (1 - y)) by ring; apply Rmult_le_pos; lra|].
  split; [apply Rmult_le_pos; lra|].
  unfold c_sw. fold i.
  split; [replace (i - i * v_wr a - i * v_wt a - i * v_ws a) with (i * (1 - (v_wr a + v_wt a + v_ws a))) by ring; apply Rmult_le_pos; lra|].
  unfold c_di. fold i. destruct (detect1_cases (p_nmedium P) (p_nmedium P) (p_detection P) (v_dia P a) (1 - i)) as [-> | ->]; lra.
Qed.

Lemma c_known_nonneg : (forall a, In a v -> wview a) -> 0 <= c_known P ft v.
Proof.
  intros Hw. unfold c_known.
  assert (H : 0 <= total (map (fun a => c_ab P ft a + c_rp P ft a + c_tp P ft a) v)); [|destruct ft; [apply pos_INR|exact H]].
  apply total_nonneg_map. intros a Ha. destruct (c_range a Ha (Hw a Ha)) as (A & B & _ & _ & _ & C & _). lra.
Qed.
End Range.

(** * Aperture *)
Lemma detect1_mono' nb na t1 t2 th w : 0 <= w -> t1 <= t2 -> detect1 nb na t1 th w <= detect1 nb na t2 th w.
Proof. intros. now apply detect1_mono. Qed.

Lemma frac_mono a b p : a <= b -> Rmax a EPS / Rmax p EPS <= Rmax b EPS / Rmax p EPS.
Proof.
  intros H. assert (He : 0 < EPS) by (unfold EPS; apply Rinv_0_lt_compat, pow_lt; lra).
  unfold Rdiv. apply Rmult_le_compat_r.
  - left. apply Rinv_0_lt_compat. eapply Rlt_le_trans; [exact He|apply Rmax_r].
  - apply Rmax_case_strong; intros; [eapply Rle_trans; [exact H|apply Rmax_l]|apply Rmax_r].
Qed.
Lemma frac_nonneg a p : 0 <= Rmax a EPS / Rmax p EPS.
Proof.
  assert (He : 0 < EPS) by (unfold EPS; apply Rinv_0_lt_compat, pow_lt; lra).
  apply Rlt_le, Rdiv_lt_0_compat; (eapply Rlt_le_trans; [exact He|apply Rmax_r]).
Qed.

Lemma aperture_mono P ft v a1 a2 :
  0 < p_nmedium P -> 0 < choose_n_tir P -> (forall m, p_nfront P = Some m -> 0 < m) -> (forall m, p_nback P = Some m -> 0 < m) ->
  bad_in P ft v = false -> bad_angle P ft v = false -> (forall a, In a v -> wview a) -> a1 <= a2 ->
  c_R (with_detection a1 P) ft v <= c_R (with_detection a2 P) ft v
  /\ c_T (with_detection a1 P) ft v <= c_T (with_detection a2 P) ft v.
Proof.
  intros Hm Ht Hf Hb B1 B2 Hw Ha.
  set (P1 := with_detection a1 P). set (P2 := with_detection a2 P).
  assert (Hd : forall a, In a v -> c_dr P1 ft a <= c_dr P2 ft a /\ c_dt P1 ft a <= c_dt P2 ft a /\ c_di P1 ft a <= c_di P2 ft a).
  { intros a Hin. pose proof (inc_range P ft v Hm Ht Hf B2 a Hin (Hw a Hin)) as Hi.
    destruct (c_range P ft v Hm Ht Hf Hb B2 a Hin (Hw a Hin)) as (A & B & _).
    split; [|split]; apply detect1_mono'; try exact Ha; [exact A|exact B|].
    change (0 <= 1 - v_inc P ft a). lra. }
  assert (Hrdf : c_rdf P1 ft v <= c_rdf P2 ft v).
  { apply frac_mono, total_le_map. intros a Hin. apply (Hd a Hin). }
  assert (Htdf : c_tdf P1 ft v <= c_tdf P2 ft v).
  { apply frac_mono, total_le_map. intros a Hin. apply (Hd a Hin). }
  assert (Hk : 0 <= c_known P ft v) by (apply c_known_nonneg; auto).
  assert (Hdiv : forall x, 0 <= x -> 0 <= x / c_known P ft v).
  { intros x Hx. destruct Hk as [Hk|Hk]; [apply Rmult_le_pos; [exact Hx|left; now apply Rinv_0_lt_compat]|].
    rewrite <- Hk. unfold Rdiv. rewrite Rinv_0. lra. }
  assert (Hrf : 0 <= c_rfrac P ft v) by (apply Hdiv, total_nonneg_map; intros a Hin; apply (c_range P ft v Hm Ht Hf Hb B2 a Hin (Hw a Hin))).
  assert (Htf : 0 <= c_tfrac P ft v) by (apply Hdiv, total_nonneg_map; intros a Hin; apply (c_range P ft v Hm Ht Hf Hb B2 a Hin (Hw a Hin))).
  assert (He : forall a, In a v -> 0 <= c_er P ft v a /\ 0 <= c_et P ft v a).
  { intros a Hin. destruct (c_range P ft v Hm Ht Hf Hb B2 a Hin (Hw a Hin)) as (_ & _ & X & Y & Z & _).
    unfold c_er, c_et. destruct (p_boundary P); [|lra].
    pose proof (Rmult_le_pos _ _ X Hrf). pose proof (Rmult_le_pos _ _ X Htf).
    pose proof (Rmult_le_pos _ _ Y Hrf). pose proof (Rmult_le_pos _ _ Y Htf). lra. }
  assert (Hn : 0 <= / INR (length v)).
  { destruct v as [|x l]; [cbn; rewrite Rinv_0; lra|]. left. apply Rinv_0_lt_compat, lt_0_INR. cbn. lia. }
  split; apply total_le_map; intros a Hin; apply Rmult_le_compat_r; auto;
  destruct (Hd a Hin) as (D1 & D2 & D3); destruct (He a Hin) as (E1 & E2).
  - change (c_er P1 ft v a) with (c_er P ft v a). change (c_er P2 ft v a) with (c_er P ft v a).
    pose proof (Rmult_le_compat_l _ _ _ E1 Hrdf). lra.
  - change (c_et P1 ft v a) with (c_et P ft v a). change (c_et P2 ft v a) with (c_et P ft v a).
    pose proof (Rmult_le_compat_l _ _ _ E2 Htdf). lra.
Qed.

(** * Absorption *)
Definition dim_view (a a' : view) : Prop :=
  v_first a' = v_first a /\ v_ar a' = v_ar a /\ v_at a' = v_at a /\ v_kz0 a' = v_kz0 a /\ v_ae a' = v_ae a
  /\ v_wr a' <= v_wr a /\ v_wt a' <= v_wt a /\ v_ws a' <= v_ws a.

Lemma Forall2_impl {A B} (Q Q' : A -> B -> Prop) l m : (forall a b, Q a b -> Q' a b) -> Forall2 Q l m -> Forall2 Q' l m.
Proof. intros H. induction 1; constructor; auto. Qed.
Lemma Forall2_both {A B} (Q Q' : A -> B -> Prop) l m : Forall2 Q l m -> Forall2 Q' l m -> Forall2 (fun a b => Q a b /\ Q' a b) l m.
Proof. induction 1; intros H'; inversion H'; subst; constructor; auto. Qed.

Lemma Forall2_len {A B} (Q : A -> B -> Prop) l m : Forall2 Q l m -> length l = length m.
Proof. induction 1; cbn; auto. Qed.

Lemma total_le_Forall2 {A} (f g : A -> R) l m : Forall2 (fun a b => f a <= g b) l m -> total (map f l) <= total (map g m).
Proof. induction 1; cbn; lra. Qed.

Lemma forall2_in {A} (Q : A -> A -> Prop) l m : Forall2 Q l m -> Forall2 (fun a b => Q a b /\ In a l /\ In b m) l m.
Proof.
  induction 1 as [|a b l m H _ IH]; constructor; [cbn; auto|].
  eapply Forall2_impl; [|exact IH]. cbn. intuition.
Qed.

Lemma dim_mono P ft v v' :
  0 < p_nmedium P -> 0 < choose_n_tir P -> (forall m, p_nfront P = Some m -> 0 < m) -> (forall m, p_nback P = Some m -> 0 < m) ->
  bad_in P ft v = false -> bad_angle P ft v = false -> bad_angle P ft v' = false -> bad_known P ft v = false ->
  (forall a, In a v -> wview a) -> (forall a, In a v' -> wview a) ->
  (forall a, In a v -> c_dr P ft a = c_rp P ft a /\ c_dt P ft a = c_tp P ft a) ->
  (forall a, In a v' -> c_dr P ft a = c_rp P ft a /\ c_dt P ft a = c_tp P ft a) ->
  Forall2 dim_view v v' ->
  c_R P ft v' <= c_R P ft v /\ c_T P ft v' <= c_T P ft v.
Proof.
  intros Hm Ht Hf Hb B1 B2 B2' B3 Hw Hw' Hd Hd' Hdim.
  apply forall2_in in Hdim.
  assert (Hlen : length v' = length v) by (symmetry; eapply Forall2_len; exact Hdim).
  assert (Hrel : Forall2 (fun a b => c_rp P ft b <= c_rp P ft a /\ c_tp P ft b <= c_tp P ft a /\ c_rf P ft b <= c_rf P ft a
     /\ c_tf P ft b <= c_tf P ft a /\ c_sw P ft b <= c_sw P ft a /\ c_di P ft b = c_di P ft a /\ v_inc P ft b = v_inc P ft a
     /\ In a v /\ In b v') v v').
  { eapply Forall2_impl; [|exact Hdim]. cbn. intros a b ((E1 & E2 & E3 & E4 & E5 & W1 & W2 & W3) & Ha & Hb').
    assert (Ei : v_inc P ft b = v_inc P ft a).
    { unfold v_inc. destruct ft; [reflexivity|]. unfold v_in. rewrite E1, E5. reflexivity. }
    pose proof (inc_range P ft v Hm Ht Hf B2 a Ha (Hw a Ha)) as Hi.
    destruct (pass_range P ft v Hm Ht Hf Hb B2 a Ha (Hw a Ha)) as [Q1 Q2].
    unfold c_rf, c_tf, c_rp, c_tp, c_sw, c_rw, c_tw, c_di, v_dia. rewrite Ei, E2, E3, E4, E5.
    set (i := v_inc P ft a) in *. set (x := pf1 _ (p_nfront P) _ _) in *. set (y := pf1 _ (p_nback P) _ _) in *.
    assert (M1 : i * v_wr b <= i * v_wr a) by (apply Rmult_le_compat_l; lra).
    assert (M2 : i * v_wt b <= i * v_wt a) by (apply Rmult_le_compat_l; lra).
    assert (M3 : i * v_ws b <= i * v_ws a) by (apply Rmult_le_compat_l; lra).
    assert (M4 : i * v_wr b * x <= i * v_wr a * x) by (apply Rmult_le_compat_r; lra).
    assert (M5 : i * v_wt b * y <= i * v_wt a * y) by (apply Rmult_le_compat_r; lra).
    assert (M6 : i * v_wr b * (1 - x) <= i * v_wr a * (1 - x)) by (apply Rmult_le_compat_r; lra).
    assert (M7 : i * v_wt b * (1 - y) <= i * v_wt a * (1 - y)) by (apply Rmult_le_compat_r; lra).
    repeat split; auto; lra. }
  assert (Hrev : forall f : view -> view -> Prop, Forall2 f v v' -> Forall2 (fun b a => f a b) v' v).
  { intros f H. clear -H. induction H; constructor; auto. }
  apply Hrev in Hrel. clear Hrev.
  assert (Hk : c_known P ft v <= c_known P ft v').
  { unfold c_known. rewrite Hlen. 
    assert (Hr2 : Forall2 (fun a b => c_ab P ft a + c_rp P ft a + c_tp P ft a <= c_ab P ft b + c_rp P ft b + c_tp P ft b) v v').
    { clear -Hrel. induction Hrel as [|b a m l H _ IH]; constructor; auto.
      destruct H as (H1 & H2 & H3 & H4 & H5 & H6 & H7 & _). unfold c_ab. unfold c_rf, c_tf in *. lra. }
    apply total_le_Forall2 in Hr2. destruct ft; [lra|exact Hr2]. }
  assert (Hk0 : 0 <= c_known P ft v) by (apply c_known_nonneg; auto).
  assert (Hrp : total (map (c_rp P ft) v') <= total (map (c_rp P ft) v)).
  { apply total_le_Forall2. eapply Forall2_impl; [|exact Hrel]. cbn. tauto. }
  assert (Htp : total (map (c_tp P ft) v') <= total (map (c_tp P ft) v)).
  { apply total_le_Forall2. eapply Forall2_impl; [|exact Hrel]. cbn. tauto. }
  assert (Hrp0 : 0 <= total (map (c_rp P ft) v')).
  { apply total_nonneg_map. intros a Ha. apply (c_range P ft v' Hm Ht Hf Hb B2' a Ha (Hw' a Ha)). }
  assert (Htp0 : 0 <= total (map (c_tp P ft) v')).
  { apply total_nonneg_map. intros a Ha. apply (c_range P ft v' Hm Ht Hf Hb B2' a Ha (Hw' a Ha)). }
  assert (Hdf : forall u, (forall a, In a u -> c_dr P ft a = c_rp P ft a /\ c_dt P ft a = c_tp P ft a) ->
     c_rdf P ft u = 1 /\ c_tdf P ft u = 1).
  { intros u Hu. assert (He : 0 < EPS) by (unfold EPS; apply Rinv_0_lt_compat, pow_lt; lra).
    unfold c_rdf, c_tdf. rewrite (map_ext_in (c_dr P ft) (c_rp P ft) u) by (intros a Ha; apply (Hu a Ha)).
    rewrite (map_ext_in (c_dt P ft) (c_tp P ft) u) by (intros a Ha; apply (Hu a Ha)).
    split; apply Rinv_r, Rgt_not_eq; (eapply Rlt_le_trans; [exact He|apply Rmax_r]). }
  destruct (Hdf v Hd) as [D1 D2]. destruct (Hdf v' Hd') as [D1' D2'].
  assert (Hn : 0 <= / INR (length v)).
  { destruct v as [|x l]; [cbn; rewrite Rinv_0; lra|]. left. apply Rinv_0_lt_compat, lt_0_INR. cbn. lia. }
  assert (Hfr : p_boundary P = film -> 0 <= c_rfrac P ft v' <= c_rfrac P ft v /\ 0 <= c_tfrac P ft v' <= c_tfrac P ft v).
  { intros Hfilm. unfold bad_known in B3. rewrite Hfilm in B3. apply Reqb_false in B3.
    assert (Hkp : 0 < c_known P ft v) by lra.
    assert (G : forall x y, 0 <= x -> x <= y -> 0 <= x / c_known P ft v' <= y / c_known P ft v).
    { intros x y Hx Hxy. split; [apply Rmult_le_pos; [exact Hx|left; apply Rinv_0_lt_compat; lra]|].
      apply Rmult_le_compat; [exact Hx|left; apply Rinv_0_lt_compat; lra|exact Hxy|apply Rinv_le_contravar; lra]. }
    split; apply G; assumption. }
  assert (Herr : Forall2 (fun b a => c_er P ft v' b <= c_er P ft v a /\ c_et P ft v' b <= c_et P ft v a) v' v).
  { eapply Forall2_impl; [|exact Hrel]. cbn. intros b a (H1 & H2 & H3 & H4 & H5 & H6 & H7 & Ha & Hb').
    destruct (c_range P ft v' Hm Ht Hf Hb B2' b Hb' (Hw' b Hb')) as (_ & _ & X & Y & Z & _).
    unfold c_er, c_et. destruct (p_boundary P) eqn:Hbd; [|lra].
    destruct (Hfr eq_refl) as [F1 F2].
    assert (G : forall x x' y y', 0 <= x -> x <= x' -> 0 <= y -> y <= y' -> x * y <= x' * y') by (intros; apply Rmult_le_compat; assumption).
    pose proof (G _ _ _ _ X H3 (proj1 F1) (proj2 F1)). pose proof (G _ _ _ _ X H3 (proj1 F2) (proj2 F2)).
    pose proof (G _ _ _ _ Y H4 (proj1 F1) (proj2 F1)). pose proof (G _ _ _ _ Y H4 (proj1 F2) (proj2 F2)). lra. }
  assert (Hall : Forall2 (fun b a => (c_er P ft v' b <= c_er P ft v a /\ c_et P ft v' b <= c_et P ft v a)
      /\ c_rp P ft b <= c_rp P ft a /\ c_tp P ft b <= c_tp P ft a /\ c_di P ft b = c_di P ft a /\ In a v /\ In b v') v' v).
  { eapply Forall2_impl; [|exact (Forall2_both _ _ _ _ Herr Hrel)]. cbn. tauto. }
  split; apply total_le_Forall2; eapply Forall2_impl; try exact Hall; cbn; intros b a ((E1 & E2) & H1 & H2 & H3 & Ha & Hb');
  rewrite Hlen; apply Rmult_le_compat_r; auto;
  destruct (Hd a Ha) as [A1 A2]; destruct (Hd' b Hb') as [A1' A2']; rewrite ?D1, ?D2, ?D1', ?D2', ?A1', ?A2', ?A1, ?A2; lra.
Qed.
