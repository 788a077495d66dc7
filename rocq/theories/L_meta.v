(** The result of calc_refl_trans without re-runs and goniometer,
    as a function of a few numbers per trajectory (C132-C137). *)
From Coq Require Import Lra Lia Psatz Permutation.
From Verif Require Import L_outcomes.
Open Scope R_scope.

Record view := mk_view {
  v_r : nat; v_t : nat; v_first : R; v_wr : R; v_wt : R; v_ws : R; v_ar : R; v_at : R; v_kz0 : R; v_ae : R }.

Definition exit_angle (P : params) (t : traj) (i : nat) : R :=
  match p_boundary P with film => film_exit_angle t i | sphere => fst (sphere_exit_angle (p_thickness P) t i) end.

Definition film_view (P : params) (t : traj) : view :=
  let ev := event_indices (choose_n_tir P) (p_nmedium P) (p_thickness P) (p_zlow P) (p_boundary P) t in
  mk_view (i_refl ev) (i_trans ev) (film_exit_angle t 1)
    (select_col (t_w t) (i_refl ev)) (select_col (t_w t) (i_trans ev)) (select_col (t_w t) (i_stuck ev))
    (exit_angle P t (i_refl ev)) (exit_angle P t (i_trans ev)) (vz (nth 0 (t_dir t) vzero))
    (match p_boundary P with film => 0 | sphere => fst (sphere_entry_angle (p_thickness P) t 1) end).

Definition view_enter (P : params) (ft : bool) (v : list view) : result (option (list R)) :=
  if ft then Ok (Some (map (fun _ => 1) v))
  else match p_boundary P with
  | sphere => bind (fresnel_pass_frac (p_nmedium P) (p_nfront P) (choose_n_tir P) (map v_ae v)) (fun fr => Ok (Some fr))
  | film => match get_all (match p_kz0rot P with
                      | Some d => map Some d
                      | None => map (fun x => option_map cos (refraction (v_first x) (choose_n_tir P) (p_nmedium P))) v
                      end) with
       | None => Ok None
       | Some d => bind (fresnel_pass_frac (p_nmedium P) (p_nfront P) (choose_n_tir P) (map film_angle d))
                     (fun fr => Ok (Some fr))
       end
  end.

Definition view_exit (P : params) (ft : bool) (inc : list R) (v : list view) : result exit_split :=
  let rw := map2 Rmult inc (map v_wr v) in
  let tw := map2 Rmult inc (map v_wt v) in
  let sw := map2 Rmult inc (map v_ws v) in
  let ab := map2 Rminus (map2 Rminus (map2 Rminus inc rw) tw) sw in
  bind (fresnel_pass_frac (choose_n_tir P) (p_nfront P) (p_nmedium P) (map v_ar v)) (fun pr =>
  bind (fresnel_pass_frac (choose_n_tir P) (p_nback P) (p_nmedium P) (map v_at v)) (fun pt =>
  let rp := map2 Rmult rw pr in
  let tp := map2 Rmult tw pt in
  let known := if ft then INR (length rp) else Rsum (map2 Rplus (map2 Rplus ab rp) tp) in
  Ok (mk_exit (ndiv (Rsum rp) known) (ndiv (Rsum tp) known) rp tp (map2 Rminus rw rp) (map2 Rminus tw tp)))).

Definition view_result (P : params) (ft : bool) (v : list view) : result (option outcome) :=
  match p_kz0rot P, p_kz0refl P with
  | None, Some _ | Some _, None => Err ValueError
  | _, _ =>
    bind (view_enter P ft v) (fun inc_o =>
    match inc_o with
    | None => Ok None
    | Some inc =>
      bind (view_exit P ft inc v) (fun x =>
      let inc_refl := map (fun a => 1 - a) inc in
      let di := match p_kz0rot P, p_kz0refl P with
                | Some _, Some kr => map2 (fun k w => if Rltb (acos k) (PI - p_detection P) then 0 else w) kr inc_refl
                | _, _ => detect_correct (map (fun a => match p_boundary P with film => film_angle (v_kz0 a) | sphere => v_ae a end) v) inc_refl (p_nmedium P) (p_nmedium P) (p_detection P)
                end in
      let dt := detect_correct (map v_at v) (x_trans_pass x) (Rabs (p_nsample P)) (p_nmedium P) (p_detection P) in
      let dr := detect_correct (map v_ar v) (x_refl_pass x) (Rabs (p_nsample P)) (p_nmedium P) (p_detection P) in
      match distribute_ambig_traj_weights (x_refl_fresnel x) (x_trans_fresnel x) (x_refl_frac x) (x_trans_frac x)
              (det_frac dr (x_refl_pass x)) (det_frac dt (x_trans_pass x)) dr dt
              (map2 Rmult inc (map v_ws v)) di (p_boundary P) false with
      | None => Ok None
      | Some (r, t, rp, tp) =>
          let per := map (fun a => a / INR (length v)) in
          Ok (Some (mk_outcome (map v_r v) (map v_t v) (per di) (per (x_refl_pass x)) (per (x_trans_pass x)) rp tp
                      (x_trans_frac x) (x_refl_frac x) (per (x_refl_fresnel x)) (per (x_trans_fresnel x)) r t 0))
      end)
    end)
  end.

Lemma map2_self {A B D} (f : A -> B -> D) (g : A -> B) l : map2 f l (map g l) = map (fun a => f a (g a)) l.
Proof. induction l as [|a l IH]; cbn; congruence. Qed.

Lemma get_all_ones {A} (l : list A) : get_all (map (fun _ => Some 1) l) = Some (map (fun _ => 1) l).
Proof.
  unfold get_all. assert (E : existsb is_none (map (fun _ : A => Some 1) l) = false) by (induction l; cbn; auto).
  rewrite E. f_equal. clear E. unfold somes. induction l as [|a l IH]; cbn; congruence.
Qed.

Lemma crt_view fuel angs steps P ft d trs :
  p_run P = false -> p_gonio P = None ->
  calc_refl_trans (S fuel) angs steps P ft d trs = view_result P ft (map (film_view P) trs).
Proof.
  intros Hr Hg. cbn [calc_refl_trans]. unfold first_pass. rewrite Hg, Hr. cbn [andb].
  set (b := p_boundary P).
  set (ev := event_indices (choose_n_tir P) (p_nmedium P) (p_thickness P) (p_zlow P) b).
  cbv zeta. remember (view_result P ft (map (film_view P) trs)) as RHS eqn:ERHS. rewrite !map_map.
  assert (Een : fresnel_correct_enter (p_nmedium P) (p_nfront P) (choose_n_tir P) b (p_thickness P) trs ft (p_kz0rot P)
     = view_enter P ft (map (film_view P) trs)).
  { unfold fresnel_correct_enter, view_enter, film_view. cbn [get_angles]. fold b.
    destruct ft; [rewrite map_map; reflexivity|]. destruct b.
    - rewrite !map_map, !map2_self, !map_map. destruct (p_kz0rot P); reflexivity.
    - rewrite get_all_ones. cbn [get_angles]. rewrite !map_map, !map2_self. reflexivity. }
  assert (Ega : forall g : view -> nat, get_angles (map (fun t => g (film_view P t)) trs) b trs (p_thickness P) None
     = map (fun t => exit_angle P t (g (film_view P t))) trs).
  { intros g. unfold exit_angle, get_angles. fold b. destruct b; rewrite map2_self; reflexivity. }
  pose proof (Ega v_r) as Gr. pose proof (Ega v_t) as Gt. clear Ega. unfold film_view in Gr, Gt. cbn [v_r v_t] in Gr, Gt.
  fold b in Gr, Gt. fold ev in Gr, Gt.
  assert (Gi : get_angles (map (fun _ => 1%nat) trs) b trs (p_thickness P) (Some (map (fun t => vz (nth 0 (t_dir t) vzero)) trs))
     = map (fun a => match p_boundary P with film => film_angle (v_kz0 a) | sphere => v_ae a end) (map (film_view P) trs)).
  { unfold get_angles, film_view. fold b. rewrite !map_map. destruct b; [reflexivity|]. rewrite map2_self. reflexivity. }
  assert (Eex : forall inc : list R,
     (let '(rw, tw, sw, ab) := calc_outcome_weights inc (map (fun x => i_refl (ev x)) trs) (map (fun x => i_trans (ev x)) trs)
                                  (map (fun x => i_stuck (ev x)) trs) (map t_w trs) in
      sw = map2 Rmult inc (map v_ws (map (film_view P) trs))
      /\ fresnel_correct_exit (choose_n_tir P) (p_nmedium P) (p_nfront P) (p_nback P) (map (fun x => i_refl (ev x)) trs)
           (map (fun x => i_trans (ev x)) trs) rw tw ab b (p_thickness P) trs ft
         = view_exit P ft inc (map (film_view P) trs))).
  { intros inc. unfold calc_outcome_weights, fresnel_correct_exit, view_exit, select_all. rewrite Gr, Gt.
    rewrite !(map2_maps select_col), !map_map. split; reflexivity. }
  assert (Hmain : forall kr kf, p_kz0rot P = kr -> p_kz0refl P = kf ->
     (match kr, kf with None, Some _ | Some _, None => False | _, _ => True end) ->
     bind (bind (fresnel_correct_enter (p_nmedium P) (p_nfront P) (choose_n_tir P) b (p_thickness P) trs ft kr)
       (fun inc_o => match inc_o with
        | None => Ok None
        | Some inc =>
          let '(refl_w, trans_w, stuck_w, absorb_w) :=
            calc_outcome_weights inc (map (fun x => i_refl (ev x)) trs) (map (fun x => i_trans (ev x)) trs)
              (map (fun x => i_stuck (ev x)) trs) (map t_w trs) in
          bind (fresnel_correct_exit (choose_n_tir P) (p_nmedium P) (p_nfront P) (p_nback P) (map (fun x => i_refl (ev x)) trs)
                  (map (fun x => i_trans (ev x)) trs) refl_w trans_w absorb_w b (p_thickness P) trs ft) (fun x =>
          let '(inc_det, trans_det, refl_det, tdf, rdf) :=
            detect_corrected_traj inc (Rabs (p_nsample P)) (p_nmedium P) (map (fun x => i_refl (ev x)) trs)
              (map (fun x => i_trans (ev x)) trs) (x_refl_pass x) (x_trans_pass x) trs b (p_thickness P)
              (p_detection P) kr kf in
          Ok (Some (mk_pass trs (map (fun x => i_refl (ev x)) trs) (map (fun x => i_trans (ev x)) trs)
                  (map (fun x => i_tir (ev x)) trs) stuck_w absorb_w x inc_det trans_det refl_det tdf rdf
                  (Rsum (map2 Rplus (map2 Rplus (x_refl_fresnel x) (x_trans_fresnel x)) stuck_w) / INR (length trs)))))
        end))
     (fun qo => match qo with
      | None => Ok None
      | Some q =>
        match distribute_ambig_traj_weights (x_refl_fresnel (q_exit q)) (x_trans_fresnel (q_exit q))
                (x_refl_frac (q_exit q)) (x_trans_frac (q_exit q)) (q_refl_det_frac q) (q_trans_det_frac q)
                (q_refl_det q) (q_trans_det q) (q_stuck q) (q_inc_refl_det q) b false with
        | None => Ok None
        | Some (r, t, rp, tp) => Ok (Some (make_outcome q r t rp tp 0))
        end
      end) = view_result P ft (map (film_view P) trs)).
  { intros kr kf Ekr Ekf Hk. unfold view_result. rewrite <- Ekr at 1. rewrite Een, Ekr, Ekf.
    destruct (view_enter P ft (map (film_view P) trs)) as [[inc|]|e] eqn:Ev; cbn [bind].
    - specialize (Eex inc).
      destruct (calc_outcome_weights inc _ _ _ _) as [[[rw tw] sw] ab] eqn:Eow. destruct Eex as [-> ->].
      destruct (view_exit P ft inc (map (film_view P) trs)) as [x|e]; cbn [bind].
      + unfold detect_corrected_traj. rewrite Gr, Gt, Gi, !map_map.
        destruct kr as [kr|], kf as [kf|]; try contradiction;
        cbn [q_exit q_refl_det_frac q_trans_det_frac q_refl_det q_trans_det q_stuck q_inc_refl_det bind];
        unfold make_outcome; cbn [q_exit q_refl_i q_trans_i q_inc_refl_det q_trs];
        rewrite !map_length; reflexivity.
      + destruct kr as [kr|], kf as [kf|]; try contradiction; reflexivity.
    - destruct kr as [kr|], kf as [kf|]; try contradiction; reflexivity.
    - destruct kr as [kr|], kf as [kf|]; try contradiction; reflexivity. }
  rewrite ERHS. clear RHS ERHS. specialize (Hmain _ _ eq_refl eq_refl). unfold view_result in Hmain |- *.
  destruct (p_kz0rot P) as [kr|], (p_kz0refl P) as [kf|]; try reflexivity; exact (Hmain Logic.I).
Qed.

(** The parameters [view_result] uses. *)
Definition same_optics (P P' : params) : Prop :=
  p_boundary P = p_boundary P' /\ p_nmedium P = p_nmedium P' /\ p_nsample P = p_nsample P' /\ p_detection P = p_detection P'
  /\ p_nfront P = p_nfront P' /\ p_nback P = p_nback P' /\ p_kz0rot P = p_kz0rot P' /\ p_kz0refl P = p_kz0refl P'
  /\ p_fine P = p_fine P' /\ p_nparticle P = p_nparticle P' /\ p_nmatrix P = p_nmatrix P'.

Lemma view_result_ext P P' ft v : same_optics P P' -> view_result P ft v = view_result P' ft v.
Proof.
  intros (E0 & E1 & E2 & E3 & E4 & E5 & E6 & E7 & E8 & E9 & E10).
  assert (Et : choose_n_tir P = choose_n_tir P') by (unfold choose_n_tir; rewrite E2, E8, E9, E10; reflexivity).
  unfold view_result, view_enter, view_exit. rewrite Et, E0, E1, E2, E3, E4, E5, E6, E7. reflexivity.
Qed.

Lemma crt_same_views fuel fuel' angs angs' steps steps' P P' ft d d' trs trs' :
  p_run P = false -> p_gonio P = None -> p_run P' = false -> p_gonio P' = None ->
  same_optics P P' -> Forall2 (fun t t' => film_view P t = film_view P' t') trs trs' ->
  calc_refl_trans (S fuel) angs steps P ft d trs = calc_refl_trans (S fuel') angs' steps' P' ft d' trs'.
Proof.
  intros H2 H3 H2' H3' Ho Hv. rewrite !crt_view by assumption.
  rewrite (view_result_ext P P' ft _ Ho). f_equal.
  induction Hv as [|t t' trs trs' E _ IH]; [reflexivity|]. cbn. rewrite E, IH. reflexivity.
Qed.
