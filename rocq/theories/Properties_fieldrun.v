(** C152: in a whole calculation with fields every trajectory has its own
    fields. *)
From Coq Require Import Lra Lia Psatz String.
From Verif Require Import Num Spec Spec_polarization Spec_fields Spec_detector Spec_scatter
  M_init M_montecarlo M_detector M_simulation M_polarization M_fields M_fieldflow
  L_num L_montecarlo L_montecarlo2 L_fields L_simulation L_fieldflow Properties_montecarlo Properties_simulation Properties_detector Properties_fieldflow.
From Coquelicot Require Import Complex.
Open Scope R_scope.

Lemma run_trajs_move nev mu ang steps : forall l i trs,
  run_trajs nev mu ang steps i l = Ok (Some trs) ->
  forall j s, nth_error l j = Some s ->
  exists p, t_pos (nth j trs (mk_traj [] [] []))
            = move (p :: repeat vzero nev) (t_dir (nth j trs (mk_traj [] [] [])))
                (map (fun row => nth (i + j)%nat row 0) steps).
Proof.
  induction l as [|s l IH]; intros i trs H j s' Hj; [destruct j; discriminate|].
  cbn [run_trajs] in H.
  destruct (run_traj nev mu (ang i) (map (fun row => nth i row 0) steps) s) as [t|] eqn:Et; [|discriminate].
  cbn [bind] in H. destruct (run_trajs nev mu ang steps (S i) l) as [ts|] eqn:Es; [|discriminate].
  cbn [bind] in H. destruct t as [t|]; [|discriminate]. destruct ts as [ts|]; [|discriminate].
  assert (trs = t :: ts) as -> by congruence.
  destruct j as [|j]; cbn [nth nth_error] in Hj |- *.
  - clear Hj s'. destruct s as [[p d] w]. unfold run_traj in Et. destruct d as [k|]; [|discriminate].
    destruct (scatter _ _) as [dirs|]; [|discriminate]. cbn [bind] in Et.
    exists p. rewrite Nat.add_0_r. injection Et as <-. reflexivity.
  - destruct (IH (S i) ts Es j s' Hj) as (p & E). exists p.
    replace (i + S j)%nat with (S i + j)%nat by lia. exact E.
Qed.

Lemma all_some_nth {A} : forall (l : list (option A)) m, all_some l = Some m ->
  forall i a d, nth_error l i = Some a -> a = Some (nth i m d).
Proof.
  induction l as [|o l IH]; intros m H i a d Hi; [destruct i; discriminate|].
  cbn in H. destruct o as [x|]; [|discriminate]. destruct (all_some l) as [r|] eqn:E; [|discriminate].
  injection H as <-. destruct i as [|i]; cbn [nth_error nth] in *; [congruence|].
  now apply (IH r eq_refl).
Qed.

(** C152.  Trajectory i of the run moves by lengths L along its directions; its
    fields are those calc_fields computes for a run that consists of this
    trajectory alone: from its own initial field, its own scattering angles, its
    own directions and its own path lengths. *)
Theorem C152_own_fields : forall nevents ntraj spot tmin tmax pmin pmax mu_scat amp nk wavelen
    coherent polarized documented det_theta P D ux uy trs fss o c i,
  (0 < nevents)%nat -> (0 < ntraj)%nat -> 0 < spot -> 0 < mu_scat -> 0 <= p_muabs P ->
  in01 (d_l0 D) -> in01 (d_l1 D) -> (forall n j, 0 <= d_u D n j < 1) ->
  0 < p_nmedium P <= p_nsample P ->
  fields_run nevents ntraj spot tmin tmax pmin pmax mu_scat amp nk wavelen coherent polarized documented det_theta P D ux uy
    = Ok (Some (trs, fss, o, c)) ->
  (i < ntraj)%nat ->
  let tr := nth i trs (mk_traj [] [] []) in
  exists (L : list R) start angs,
    length L = nevents
    /\ (forall e, (e < nevents)%nat ->
         vsub (nth (S e) (t_pos tr) vzero) (nth e (t_pos tr) vzero) = vscale (nth e L 0) (nth e (t_dir tr) vzero))
    /\ init_fields coherent polarized nevents (ux i) (uy i) = Ok (Some start)
    /\ calc_fields amp nk wavelen false
         [mk_ft (map (d_ang D i) (seq 0 (nevents - 1))) L (t_dir tr) start []] = Ok ([nth i fss []], angs).
Proof.
  intros nev ntraj spot tmin tmax pmin pmax mu amp nk wl coh pol doc det P D ux uy trs fss o c i
    Hn Ht Hsp Hm Ha H0 H1 Hu Hns H Hi tr.
  destruct (fields_run_parts nev ntraj spot tmin tmax pmin pmax mu amp nk wl coh pol doc det P D ux uy
    Hn Ht Hsp Hm Ha H0 H1 Hu Hns) as (T & E & fss0 & EQ & _ & _ & HT & _ & _).
  assert (Hd : length (t_dir (T i)) = nev) by (destruct (HT i Hi) as (_ & X & _); exact X).
  assert (trs = map T (seq 0 ntraj)) as Etrs.
  { rewrite EQ in H. destruct (calc_refl_trans _ _ _ _ _ _ _) as [[o'|]|]; cbn [bind] in H; try discriminate.
    destruct (calc_refl_co_cross_fields _ _ _ _) as [c'|]; cbn [bind] in H; [|discriminate].
    injection H. intros. symmetry. assumption. }
  assert (Htr : tr = T i).
  { unfold tr. rewrite Etrs. rewrite (nth_indep _ _ (T 0%nat)) by (rewrite map_length, seq_length; exact Hi).
    rewrite map_nth, seq_nth by exact Hi. reflexivity. }
  clear EQ HT. unfold fields_run in H.
  destruct (initialize_film_ok nev ntraj spot None None tmin tmax pmin pmax (p_nmedium P) (p_nsample P)
     (d_l0 D) (d_l1 D) (d_l2 D) (d_l3 D) Hsp ltac:(lra) ltac:(lra) H0 H1 ltac:(discriminate) ltac:(discriminate))
    as (l & El & Hl & _). rewrite El in H. cbn [bind] in H.
  destruct (initial_fields coh pol nev ntraj ux uy) as [E0|] eqn:EE; cbn [bind] in H; [|discriminate].
  rewrite sample_step_single in H by lra. cbn [bind] in H.
  set (steps := map (map (step_of mu)) (uniform_rows nev ntraj (d_u D))) in *.
  assert (Hsl : length steps = nev) by (unfold steps, uniform_rows; now rewrite !map_length, seq_length).
  destruct (run_trajs _ _ _ _ _ _) as [ts|] eqn:ER; cbn [bind] in H; [|discriminate].
  destruct ts as [ts|]; [|discriminate]. destruct E0 as [E0|]; [|discriminate].
  destruct (calc_fields amp nk wl false (map (field_traj nev D steps ts E0) (seq 0 ntraj))) as [[fs angs]|] eqn:EF;
    cbn [bind fst] in H; [|discriminate].
  destruct (calc_refl_trans _ _ _ _ _ _ _) as [[o'|]|]; cbn [bind] in H; try discriminate.
  destruct (calc_refl_co_cross_fields _ _ _ _) as [c'|]; cbn [bind] in H; [|discriminate].
  assert (ts = trs /\ fs = fss) as [-> ->] by (injection H; intros; split; assumption). clear H.
  exists (map (fun row => nth i row 0) steps), (nth i E0 []).
  destruct (nth_error l i) as [s|] eqn:Es.
  2:{ apply nth_error_None in Es. lia. }
  destruct (run_trajs_move _ _ _ _ _ _ _ ER i s Es) as (p & Ep). fold tr in Ep. cbn [Nat.add] in Ep.
  assert (Hne : nth_error (map (field_traj nev D steps trs E0) (seq 0 ntraj)) i = Some (field_traj nev D steps trs E0 i)).
  { apply map_nth_error. rewrite (nth_error_nth' _ 0%nat) by (now rewrite seq_length). now rewrite seq_nth. }
  pose proof (calc_fields_column _ _ _ _ _ _ _ _ EF Hne) as K.
  eexists. split; [now rewrite map_length|]. split; [|split].
  - intros e He. rewrite Ep. apply C15_consecutive_positions; rewrite map_length, ?Hsl; [|exact He].
    rewrite Htr. exact Hd.
  - unfold initial_fields in EE. destruct (mapM _ _) as [cols|] eqn:EM; cbn [bind] in EE; [|discriminate].
    assert (all_some cols = Some E0) as EA by congruence.
    destruct (mapM_nth _ _ _ EM) as [Lc N].
    assert (Hq : nth_error (seq 0 ntraj) i = Some i).
    { rewrite (nth_error_nth' _ 0%nat) by (now rewrite seq_length). now rewrite seq_nth. }
    rewrite (N i i None Hq). f_equal.
    apply (all_some_nth cols E0 EA i). apply nth_error_nth'. rewrite Lc, seq_length. exact Hi.
  - unfold calc_fields. cbn [andb map mapM]. unfold field_traj in K. cbn [ft_angles ft_steps ft_fields ft_dirs] in K |- *.
    fold tr in K. rewrite K. cbn [bind]. reflexivity.
Qed.
Print Assumptions C152_own_fields.
Example C152_own_case : exists trs fss o c L start angs,
  fields_run 2 1 1 0 0 0 0 1 (fun _ _ => (RtoC 1, RtoC 1, RtoC 0, RtoC 0)) 1.5 1 false false false 0 ex_film back_draws (fun _ => 1 / 3) (fun _ => 1 / 4)
    = Ok (Some (trs, fss, o, c))
  /\ length L = 2%nat /\ init_fields false false 2 (1 / 3) (1 / 4) = Ok (Some start)
  /\ calc_fields (fun _ _ => (RtoC 1, RtoC 1, RtoC 0, RtoC 0)) 1.5 1 false
       [mk_ft (map (d_ang back_draws 0) (seq 0 1)) L (t_dir (nth 0 trs (mk_traj [] [] []))) start []] = Ok ([nth 0 fss []], angs).
Proof.
  destruct C152_case as (trs & fss & o & co & cr & perp & coh & inc & H & _).
  destruct (C152_own_fields 2 1 1 0 0 0 0 1 _ _ _ _ _ _ _ ex_film back_draws _ _ _ _ _ _ 0%nat
    ltac:(lia) ltac:(lia) ltac:(lra) ltac:(lra) ltac:(cbn; lra)
    ltac:(intros j; cbn; lra) ltac:(intros j; cbn; lra) back_u ltac:(cbn; lra) H ltac:(lia))
    as (L & start & angs & H1 & _ & H2 & H3).
  exists trs, fss, o, (co, cr, perp, coh, inc), L, start, angs.
  split; [exact H|]. split; [exact H1|]. split; [exact H2|]. exact H3.
Qed.
