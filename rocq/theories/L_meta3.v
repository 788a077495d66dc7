(** A closed form of [view_result] without roughness arrays, and its
    monotonicity (C135-C137). *)
From Coq Require Import Lra Lia Psatz Permutation.
From Verif Require Import L_outcomes L_meta Spec_meta.
Open Scope R_scope.

Definition past (t : R) : bool := Rltb (PI / 2) t.

Lemma pass_frac_closed nb ni na ths :
  fresnel_pass_frac nb ni na ths = if existsb past ths then Err ValueError else Ok (map (pf1 nb ni na) ths).
Proof.
  destruct (existsb past ths) eqn:E.
  - apply pass_frac_err. apply existsb_exists in E. destruct E as (x & Hx & H). apply Exists_exists. exists x.
    split; [exact Hx|]. apply Rltb_true, H.
  - apply pass_frac_ok. apply Forall_forall. intros x Hx. destruct (past x) eqn:Ex.
    + assert (existsb past ths = true) by (apply existsb_exists; eauto). congruence.
    + apply Rltb_false in Ex. exact Ex.
Qed.

Section Closed.
Variables (P : params) (ft : bool).
Hypothesis Hk1 : p_kz0rot P = None.
Hypothesis Hk2 : p_kz0refl P = None.
Local Notation nt := (choose_n_tir P).
Local Notation nm := (p_nmedium P).
Local Notation ns := (Rabs (p_nsample P)).

Definition v_in (a : view) : num :=
  match p_boundary P with
  | film => option_map (fun th => film_angle (cos th)) (refraction (v_first a) nt nm)
  | sphere => Some (v_ae a) end.
Definition v_inc (a : view) : R := if ft then 1 else pf1 nm (p_nfront P) nt (nan_to_num (v_in a)).
Definition v_dia (a : view) : R := match p_boundary P with film => film_angle (v_kz0 a) | sphere => v_ae a end.

Definition c_rw a := v_inc a * v_wr a.
Definition c_tw a := v_inc a * v_wt a.
Definition c_sw a := v_inc a * v_ws a.
Definition c_ab a := v_inc a - c_rw a - c_tw a - c_sw a.
Definition c_rp a := c_rw a * pf1 nt (p_nfront P) nm (v_ar a).
Definition c_tp a := c_tw a * pf1 nt (p_nback P) nm (v_at a).
Definition c_rf a := c_rw a - c_rp a.
Definition c_tf a := c_tw a - c_tp a.
Definition c_di a := detect1 nm nm (p_detection P) (v_dia a) (1 - v_inc a).
Definition c_dr a := detect1 ns nm (p_detection P) (v_ar a) (c_rp a).
Definition c_dt a := detect1 ns nm (p_detection P) (v_at a) (c_tp a).
Definition c_known (v : list view) : R := if ft then INR (length v) else total (map (fun a => c_ab a + c_rp a + c_tp a) v).
Definition c_rfrac v := total (map c_rp v) / c_known v.
Definition c_tfrac v := total (map c_tp v) / c_known v.
Definition c_rdf v := Rmax (total (map c_dr v)) EPS / Rmax (total (map c_rp v)) EPS.
Definition c_tdf v := Rmax (total (map c_dt v)) EPS / Rmax (total (map c_tp v)) EPS.
Definition c_er v a := match p_boundary P with
  | film => c_rf a * c_rfrac v + c_tf a * c_tfrac v + c_sw a * (1 / 2)
  | sphere => 1 / 2 * (c_rf a + c_tf a + c_sw a) end.
Definition c_et v a := match p_boundary P with
  | film => c_tf a * c_rfrac v + c_rf a * c_tfrac v + c_sw a * (1 / 2)
  | sphere => 1 / 2 * (c_tf a + c_rf a + c_sw a) end.
Definition c_R v := total (map (fun a => (c_dr a + c_er v a * c_rdf v + c_di a) / INR (length v)) v).
Definition c_T v := total (map (fun a => (c_dt a + c_et v a * c_tdf v) / INR (length v)) v).

(** What can go wrong: NaN, an angle past 90 degrees. *)
Definition bad_in (v : list view) : bool := negb ft && existsb is_none (map v_in v).
Definition bad_angle (v : list view) : bool :=
  negb ft && existsb past (map (fun a => nan_to_num (v_in a)) v) || existsb past (map v_ar v) || existsb past (map v_at v).
Definition bad_known (v : list view) : bool :=
  match p_boundary P with film => Reqb (c_known v) 0 | sphere => false end.

Lemma get_all_closed {A} (f : A -> num) l :
  get_all (map f l) = if existsb is_none (map f l) then None else Some (map (fun a => nan_to_num (f a)) l).
Proof.
  unfold get_all. destruct (existsb is_none (map f l)) eqn:E; [reflexivity|]. f_equal.
  induction l as [|a l IH]; [reflexivity|]. cbn in E |- *. destruct (f a); [|discriminate]. cbn. f_equal. now apply IH.
Qed.

Lemma enter_closed v : view_enter P ft v
  = if bad_in v then Ok None
    else if negb ft && existsb past (map (fun a => nan_to_num (v_in a)) v) then Err ValueError
    else Ok (Some (map v_inc v)).
Proof.
  unfold view_enter, bad_in, v_inc. rewrite Hk1. destruct ft; [reflexivity|]. cbn [negb andb].
  destruct (p_boundary P) eqn:Hb.
  - assert (Hi : forall a, v_in a = option_map (fun th => film_angle (cos th)) (refraction (v_first a) nt nm))
      by (intros a; unfold v_in; rewrite Hb; reflexivity).
    rewrite get_all_closed.
    assert (E : existsb is_none (map (fun a => option_map cos (refraction (v_first a) nt nm) : num) v)
       = existsb is_none (map v_in v)).
    { induction v as [|a v IH]; [reflexivity|]. cbn. rewrite IH, Hi. destruct (refraction _ _ _); reflexivity. }
    rewrite E. destruct (existsb is_none (map v_in v)) eqn:En; [reflexivity|].
    assert (Em : map film_angle (map (fun a => nan_to_num (option_map cos (refraction (v_first a) nt nm))) v)
       = map (fun a => nan_to_num (v_in a)) v).
    { rewrite map_map. apply map_ext_in. intros a Ha. rewrite Hi.
      destruct (refraction (v_first a) nt nm) as [x|] eqn:Er; [reflexivity|].
      exfalso. clear E. rewrite (proj2 (existsb_exists _ _)) in En; [discriminate|]. exists None. split; [|reflexivity].
      apply in_map_iff. exists a. rewrite Hi, Er. auto. }
    rewrite Em, pass_frac_closed. destruct (existsb past _); [reflexivity|]. cbn [bind]. rewrite map_map. reflexivity.
  - assert (Hi : forall a, v_in a = Some (v_ae a)) by (intros a; unfold v_in; rewrite Hb; reflexivity).
    rewrite pass_frac_closed.
    assert (E : existsb is_none (map v_in v) = false) by (induction v as [|a v IH]; [reflexivity|]; cbn; rewrite Hi; exact IH).
    rewrite E. rewrite (map_ext (fun a => nan_to_num (v_in a)) v_ae) by (intros a; rewrite Hi; reflexivity).
    destruct (existsb past _); [reflexivity|]. cbn [bind]. rewrite map_map. do 2 f_equal.
    apply map_ext. intros a. rewrite Hi. reflexivity.
Qed.

Lemma exit_closed v : view_exit P ft (map v_inc v) v
  = if existsb past (map v_ar v) || existsb past (map v_at v) then Err ValueError
    else Ok (mk_exit (ndiv (total (map c_rp v)) (c_known v)) (ndiv (total (map c_tp v)) (c_known v))
               (map c_rp v) (map c_tp v) (map c_rf v) (map c_tf v)).
Proof.
  unfold view_exit. rewrite !pass_frac_closed.
  destruct (existsb past (map v_ar v)); [reflexivity|]. cbn [bind orb].
  destruct (existsb past (map v_at v)); [reflexivity|]. cbn [bind].
  rewrite !map_map. rewrite !L_slots.map2_maps. rewrite !Rsum_total, !map_length. unfold c_known.
  destruct ft; reflexivity.
Qed.

Lemma answer_closed v : answer (view_result P ft v)
  = if bad_in v then Ok None
    else if bad_angle v then Err ValueError
    else if bad_known v then Ok None else Ok (Some (c_R v, c_T v)).
Proof.
  unfold view_result. rewrite Hk1, Hk2, enter_closed. unfold bad_angle.
  destruct (bad_in v); [reflexivity|].
  destruct (negb ft && existsb past (map (fun a => nan_to_num (v_in a)) v)); [reflexivity|]. cbn [bind orb].
  rewrite exit_closed.
  destruct (existsb past (map v_ar v) || existsb past (map v_at v)); [reflexivity|]. cbn [bind x_refl_pass x_trans_pass x_refl_fresnel x_trans_fresnel x_refl_frac x_trans_frac].
  unfold detect_correct. rewrite !map_map. rewrite !L_slots.map2_maps.
  change (map (fun d => detect1 nm nm (p_detection P) (match p_boundary P with film => film_angle (v_kz0 d) | sphere => v_ae d end) (1 - v_inc d)) v) with (map c_di v).
  change (map (fun d => detect1 ns nm (p_detection P) (v_at d) (c_tp d)) v) with (map c_dt v).
  change (map (fun d => detect1 ns nm (p_detection P) (v_ar d) (c_rp d)) v) with (map c_dr v).
  unfold det_frac, max2. change Rsum with total.
  change (Rmax (total (map c_dr v)) EPS / Rmax (total (map c_rp v)) EPS) with (c_rdf v).
  change (Rmax (total (map c_dt v)) EPS / Rmax (total (map c_tp v)) EPS) with (c_tdf v).
  change (map (fun d => v_inc d * v_ws d) v) with (map c_sw v).
  unfold distribute_ambig_traj_weights, bad_known, ndiv. rewrite map_length.
  destruct (p_boundary P) eqn:Hb.
  - destruct (Reqb (c_known v) 0); [reflexivity|].
    rewrite !map3_map. unfold answer. cbn [o_refl o_trans]. rewrite !map_map. change Rsum with total.
    do 2 f_equal. apply (f_equal2 pair); unfold c_R, c_T; f_equal; rewrite ?map3_map, ?L_slots.map2_maps, ?map_map;
    apply map_ext; intros a; unfold c_er, c_et; rewrite Hb; reflexivity.
  - rewrite !map3_map. unfold answer. cbn [o_refl o_trans]. change Rsum with total.
    do 2 f_equal. apply (f_equal2 pair); unfold c_R, c_T; f_equal; rewrite ?map3_map, ?L_slots.map2_maps, ?map_map;
    apply map_ext; intros a; unfold c_er, c_et; rewrite Hb; reflexivity.
Qed.
End Closed.
