(** C176: what the surface of a film reflects. *)
From Coq Require Import Lra Lia Psatz Reals List Bool.
From Verif Require Import Spec_oblique Spec_coverslip L_outcomes L_meta L_meta3 L_meta4 Spec_meta L_fresnel L_weights L_direct L_oblique L_init
  Properties_init Properties_detector Properties_meta Properties_coverslip.
Import ListNotations.
Open Scope R_scope.

(** A parallel beam at angle th outside the film, refracted by its surface to the
    angle inside at which the trajectories start. *)
Definition beam (P : params) (th inside : R) (trs : list traj) : Prop :=
  0 <= th < PI / 2 /\ 0 <= inside < PI / 2 /\ snell (p_nmedium P) th (choose_n_tir P) inside
  /\ forall t, In t trs -> Rabs (vz (nth 0 (t_dir t) vzero)) = cos inside.

Section Beam.
Variables (P : params) (th inside : R).
Hypothesis (Hb : p_boundary P = film) (Hm : 0 < p_nmedium P) (Ht : 0 < choose_n_tir P).
Hypothesis (H1 : 0 <= th < PI / 2) (H2 : 0 <= inside < PI / 2) (HS : snell (p_nmedium P) th (choose_n_tir P) inside) (Hd : inside <= p_detection P).
Variable t : traj.
Hypothesis (Hz : Rabs (vz (nth 0 (t_dir t) vzero)) = cos inside).
Let p := pf1 (p_nmedium P) (p_nfront P) (choose_n_tir P) th.

Lemma start_angle : film_angle (vz (nth 0 (t_dir t) vzero)) = inside.
Proof. unfold film_angle. rewrite Hz. apply acos_cos. lra. Qed.
Lemma first_angle : film_exit_angle t 1 = inside.
Proof.
  unfold film_exit_angle. cbn [select_col]. rewrite <- start_angle. f_equal. change 0 with (vz vzero). apply map_nth.
Qed.
Lemma outside_angle : refraction inside (choose_n_tir P) (p_nmedium P) = Some th.
Proof.
  unfold refraction. cbv zeta. replace (choose_n_tir P / p_nmedium P * sin inside) with (sin th) by (unfold snell in HS; field_simplify_eq; lra).
  rewrite (proj2 (Rltb_false _ _)); [|pose proof (SIN_bound th); apply Rabs_le; lra]. rewrite asin_sin; [reflexivity|lra].
Qed.
Lemma beam_inc : v_inc P false (film_view P t) = p.
Proof.
  unfold v_inc, v_in, film_view. cbn [v_first]. rewrite Hb, first_angle, outside_angle. cbn [option_map nan_to_num].
  assert (C : 0 < cos th) by (apply cos_gt_0; lra).
  assert (E : film_angle (cos th) = th) by (unfold film_angle; rewrite Rabs_pos_eq by lra; apply acos_cos; lra). rewrite E. reflexivity.
Qed.
Lemma beam_di : c_di P false (film_view P t) = 1 - p.
Proof.
  unfold c_di, v_dia. rewrite Hb, beam_inc. unfold film_view. cbn [v_kz0]. rewrite start_angle. unfold detect1.
  rewrite C09_refraction_same_medium by lra. rewrite (proj2 (Rltb_false _ _)) by lra. reflexivity.
Qed.
End Beam.

Lemma total_const_bound {A} (f : A -> R) c l : (forall a, In a l -> c <= f a) -> c * INR (length l) <= total (map f l).
Proof.
  induction l as [|a l IH]; intros H; [cbn; lra|]. cbn [length map total]. rewrite S_INR. specialize (IH (fun x Hx => H x (or_intror Hx))). pose proof (H a (or_introl eq_refl)). lra.
Qed.
Lemma map_seq_nth {A} (d : A) l : map (fun i => nth i l d) (seq 0 (length l)) = l.
Proof.
  apply (nth_ext _ _ d d); [now rewrite map_length, seq_length|]. intros i Hi. rewrite map_length, seq_length in Hi.
  rewrite (L_num.nth_map_in _ _ _ 0%nat) by (now rewrite seq_length). now rewrite seq_nth.
Qed.

(** C176.  The film reflects at least what its surface (with its coverslip) turns
    back, and lets through at most what the surface lets in, whatever happens
    inside. *)
Theorem C176_at_least : forall fuel angs steps P d trs o th inside p,
  valid_params P (length trs) -> trs <> [] -> p_boundary P = film -> p_run P = false -> p_gonio P = None -> p_kz0rot P = None -> p_kz0refl P = None ->
  0 <= p_muabs P -> (forall t, In t trs -> col_ok 1 t) -> beam P th inside trs -> inside <= p_detection P ->
  fresnel_pass_frac (p_nmedium P) (p_nfront P) (choose_n_tir P) [th] = Ok [p] ->
  calc_refl_trans (S fuel) angs steps P false d trs = Ok (Some o) ->
  1 - p <= o_refl o /\ 0 <= o_trans o <= p.
Proof.
  intros fuel angs steps P d trs o th inside p Hv Hne Hb Hr Hg K1 K2 Hmu HT (H1 & H2 & HS & Hz) Hd Hp Ho.
  pose proof (valid_good _ _ Hv) as G. destruct G as (Gm & Gs & Gt & Gf & Gb & _).
  rewrite pass_frac_ok in Hp by (constructor; [lra|constructor]). cbn [map] in Hp. injection Hp as Ep.
  assert (L : 1 - p <= o_refl o).
  { destruct (answered P _ _ _ _ _ _ _ Hr Hg K1 K2 Ho) as (B1 & B2 & B3 & -> & _). set (v := map (film_view P) trs) in *.
    assert (Hw : forall a, In a v -> wview a) by (intros a Ha; apply in_map_iff in Ha as (t & <- & Hin); apply film_view_ok; auto).
    assert (Hk : 0 <= c_known P false v) by (apply c_known_nonneg; auto).
    assert (Hdiv : forall x, 0 <= x -> 0 <= x / c_known P false v).
    { intros x Hx. destruct Hk as [Hk|Hk]; [apply Rmult_le_pos; [exact Hx|left; now apply Rinv_0_lt_compat]|]. rewrite <- Hk. unfold Rdiv. rewrite Rinv_0. lra. }
    assert (Hrf : 0 <= c_rfrac P false v) by (apply Hdiv, total_nonneg_map; intros a Hin; apply (c_range P false v Gm Gt Gf Gb B2 a Hin (Hw a Hin))).
    assert (Htf : 0 <= c_tfrac P false v) by (apply Hdiv, total_nonneg_map; intros a Hin; apply (c_range P false v Gm Gt Gf Gb B2 a Hin (Hw a Hin))).
    assert (Hn : 0 < INR (length v)) by (apply lt_0_INR; unfold v; rewrite map_length; destruct trs; [congruence|cbn; lia]).
    unfold c_R. pose proof (total_const_bound (fun a => (c_dr P false a + c_er P false v a * c_rdf P false v + c_di P false a) / INR (length v)) ((1 - p) / INR (length v)) v) as Q.
    replace ((1 - p) / INR (length v) * INR (length v)) with (1 - p) in Q by (field; lra). apply Q. clear Q. intros a Hin.
    apply Rmult_le_compat_r; [left; now apply Rinv_0_lt_compat|].
    destruct (c_range P false v Gm Gt Gf Gb B2 a Hin (Hw a Hin)) as (R1 & R2 & R3 & R4 & R5 & _).
    assert (D : 0 <= c_dr P false a) by (unfold c_dr; destruct (detect1_cases (Rabs (p_nsample P)) (p_nmedium P) (p_detection P) (v_ar a) (c_rp P false a)) as [-> | ->]; lra).
    assert (E : 0 <= c_er P false v a).
    { unfold c_er. rewrite Hb. pose proof (Rmult_le_pos _ _ R3 Hrf). pose proof (Rmult_le_pos _ _ R4 Htf). lra. }
    pose proof (Rmult_le_pos _ _ E (frac_nonneg (total (map (c_dr P false) v)) (total (map (c_rp P false) v)))) as F. fold (c_rdf P false v) in F.
    assert (I : c_di P false a = 1 - p).
    { apply in_map_iff in Hin as (t & <- & Hin). rewrite <- Ep. eapply beam_di; eauto. }
    lra. }
  split; [exact L|].
  assert (F : 0 <= o_refl o /\ 0 <= o_trans o /\ o_refl o + o_trans o <= 1).
  { rewrite (crt_view fuel angs steps) in Ho by assumption. rewrite <- (crt_view fuel angs (fun _ _ _ => 0) P false d) in Ho by assumption.
    rewrite <- (map_seq_nth (mk_traj [] [] []) trs) in Ho.
    destruct (fractions_hold (S fuel) angs (fun _ _ _ => 0) P d (length trs) (fun i => nth i trs (mk_traj [] [] [])) o) as (A & B & C & _); auto.
    - destruct trs; [congruence|cbn; lia].
    - intros; lra.
    - intros i Hi. apply HT. now apply nth_In. }
  lra.
Qed.
Print Assumptions C176_at_least.

(** Without a coverslip: Fresnel's reflectance of the surface, to within 1e-9. *)
Theorem C176_bare : forall fuel angs steps P d trs o th inside,
  valid_params P (length trs) -> trs <> [] -> p_boundary P = film -> p_run P = false -> p_gonio P = None -> p_kz0rot P = None -> p_kz0refl P = None ->
  0 <= p_muabs P -> (forall t, In t trs -> col_ok 1 t) -> beam P th inside trs -> inside <= p_detection P -> p_nfront P = None ->
  calc_refl_trans (S fuel) angs steps P false d trs = Ok (Some o) ->
  surface_R (p_nmedium P) th (choose_n_tir P) inside <= o_refl o /\ 0 <= o_trans o <= 1 - surface_R (p_nmedium P) th (choose_n_tir P) inside.
Proof.
  intros fuel angs steps P d trs o th inside Hv Hne Hb Hr Hg K1 K2 Hmu HT HB Hd Hf Ho. pose proof HB as (H1 & H2 & HS & _).
  pose proof (valid_good _ _ Hv) as G. destruct G as (Gm & Gs & Gt & _). pose proof EPS_pos as He.
  pose proof (bare_value (p_nmedium P) th (choose_n_tir P) inside Gm Gt H1 H2 HS) as E. rewrite <- Hf in E.
  pose proof (C176_at_least fuel angs steps P d trs o th inside _ Hv Hne Hb Hr Hg K1 K2 Hmu HT HB Hd E Ho) as (A & B).
  pose proof (surface_range (p_nmedium P) th (choose_n_tir P) inside Gm Gt H1 H2) as Q. set (r := surface_R _ _ _ _) in *.
  assert (L : (1 - r) / (1 + EPS) <= 1 - r).
  { apply (Rmult_le_reg_r (1 + EPS)); [lra|]. unfold Rdiv. rewrite Rmult_assoc, Rinv_l by lra. nra. }
  lra.
Qed.
Print Assumptions C176_bare.

(** With a coverslip: the first surface and all reflections behind it (C170). *)
Theorem C176_coverslip : forall fuel angs steps P d trs o th mid inside g,
  valid_params P (length trs) -> trs <> [] -> p_boundary P = film -> p_run P = false -> p_gonio P = None -> p_kz0rot P = None -> p_kz0refl P = None ->
  0 <= p_muabs P -> (forall t, In t trs -> col_ok 1 t) -> beam P th inside trs -> inside <= p_detection P ->
  p_nfront P = Some g -> ray (p_nmedium P) th g mid (choose_n_tir P) inside ->
  calc_refl_trans (S fuel) angs steps P false d trs = Ok (Some o) ->
  exists q, Un_cv (returned (surface_R (p_nmedium P) th g mid) (surface_R g mid (p_nmedium P) th) (surface_R g mid (choose_n_tir P) inside)) q
    /\ q <= o_refl o /\ 0 <= o_trans o <= 1 - q.
Proof.
  intros fuel angs steps P d trs o th mid inside g Hv Hne Hb Hr Hg K1 K2 Hmu HT HB Hd Hf HR Ho.
  destruct (C170_all_reflections _ _ _ _ _ _ HR) as (p & q & E & _ & U & Q). rewrite <- Hf in E.
  pose proof (C176_at_least fuel angs steps P d trs o th inside p Hv Hne Hb Hr Hg K1 K2 Hmu HT HB Hd E Ho) as (A & B).
  exists (1 - q). split; [exact U|]. lra.
Qed.
Print Assumptions C176_coverslip.

(** A film of index 3/2 in air lit along the normal: at least 4 per cent. *)
Example C176_case : exists o, calc_refl_trans 1 (fun _ _ _ => (0, 0)) (fun _ _ _ => 0) ex_film false 0 [ex_traj] = Ok (Some o)
  /\ 4 / 100 <= o_refl o /\ 0 <= o_trans o <= 96 / 100.
Proof.
  destruct ex_film_number as (o & Ho & _). exists o. change (map (fun _ : nat => ex_traj) (seq 0 1)) with [ex_traj] in Ho. split; [exact Ho|].
  pose proof PI_RGT_0. destruct ex_traj_ok as (_ & _ & _ & Hc).
  assert (N : choose_n_tir ex_film = 3 / 2) by (unfold choose_n_tir, ex_film; cbn; apply Rabs_pos_eq; lra).
  assert (V : surface_R (p_nmedium ex_film) 0 (choose_n_tir ex_film) 0 = 4 / 100).
  { rewrite N. unfold surface_R, textbook_Rp, textbook_Rs. cbn [p_nmedium ex_film]. rewrite cos_0. field. }
  destruct (C176_bare 0 (fun _ _ _ => (0, 0)) (fun _ _ _ => 0) ex_film 0 [ex_traj] o 0 0) as [A B]; try reflexivity; try exact Ho.
  - exact ex_film_valid.
  - discriminate.
  - cbn. lra.
  - intros t [<-|[]]. exact Hc.
  - split; [lra|]. split; [lra|]. split; [unfold snell; rewrite sin_0; ring|]. intros t [<-|[]]. cbn. rewrite cos_0. apply Rabs_R1.
  - cbn. lra.
  - rewrite V in A, B. lra.
Qed.
