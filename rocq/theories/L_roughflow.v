(** The whole calculation for a rough film (C149). *)
From Coq Require Import Lra Lia Psatz.
From Verif Require Import Num Spec Spec_scatter Spec_optics Spec_reflection Spec_absorbing Spec_scat Spec_scat_cplx Spec_rough Spec_roughflow
  Spec_detector Spec_events L_num L_trapezoid L_init L_montecarlo L_montecarlo2 L_reflection L_reflection2 L_sizes L_slots L_weights L_outcomes L_conserve
  L_sampling L_draws L_poly L_dcs L_scat L_scat_cplx L_simulation L_rough
  M_init M_montecarlo M_detector M_structure M_refractive_index M_reflection M_absorbing M_scat M_scat_cplx M_simulation M_rough M_workflow M_roughflow
  Properties_absorbing.
From Coquelicot Require Import Complex.
Open Scope R_scope.

(** * calc_scat for real and complex surroundings *)
Lemma phase_any factorial ang mie integ I form st n x_eff x_eff' :
  form_ok factorial (length (s_np I)) form (scat_poly I (fst n)) ->
  structure_ok (length (s_np I)) (s_vf I) st (scat_poly I (fst n)) (s_sdata I) ->
  (forall m y t, 0 <= fst (ang m y t) /\ 0 <= snd (ang m y t)) ->
  (forall m y t a, 0 <= fst (mie m y t a) /\ 0 <= snd (mie m y t a)) -> (forall k, nonneg_integrator (integ k)) ->
  (forall c0 c1, s_conc I = Some (c0, c1) -> 0 <= c0 /\ 0 <= c1 /\ c0 + c1 = 1) ->
  medium n -> 0 < s_wavelen I -> 0 < s_min I <= PI -> s_radius I <> [] -> Forall (fun r => 0 < r) (s_radius I) ->
  (forall xe, x_eff = Some xe -> Exists (fun a => a <> 0) xe) ->
  (x_eff' = x_eff \/ st = S_none) ->
  exists (P S : R -> R) sg, (forall t, In t (scat_grid I) ->
        (if Reqb (snd n) 0 then scat_dcs factorial ang I form st (fst n) x_eff t
         else scat_cdcs factorial mie I form st n x_eff' t) = Ok (Some (P t), Some (S t)) /\ 0 <= P t /\ 0 <= S t)
    /\ scat_phase factorial ang (fun n st => phase_absorbing (integ (scat_k I n)) (scat_surfaces I form)
         (scat_cdcs factorial mie I form st n x_eff') (linspace (s_min I) PI (s_num I))) I form st n x_eff
       = Ok (phase_function_p (map P (scat_grid I)) (map S (scat_grid I)), Some sg) /\ 0 <= sg.
Proof.
  intros Hf Hs Ha Hm Hi Hc [Hn Hn'] Hw Hmin Hne Hr Hx Hxx. pose proof PI_RGT_0 as HP.
  destruct (Reqb (snd n) 0) eqn:En.
  - apply Reqb_true in En. assert (E : n = RtoC (fst n)) by (destruct n as [a b]; cbn [fst snd] in *; subst; reflexivity).
    destruct (scat_phase_ok factorial ang (fun n st => phase_absorbing (integ (scat_k I n)) (scat_surfaces I form)
         (scat_cdcs factorial mie I form st n x_eff') (linspace (s_min I) PI (s_num I))) I form st (fst n) x_eff)
      as (P & S & HPS & Ep); try assumption.
    { destruct x_eff as [xe|]; [now apply Hx|]. destruct (s_radius I) as [|r rs]; [congruence|]. inversion Hr; subst. left.
      apply Rgt_not_eq. now apply size_parameter_pos. }
    rewrite <- E in Ep. exists P, S. eexists. split; [exact HPS|]. split; [exact Ep|].
    assert (Hk : 0 < 2 * PI * fst n / s_wavelen I) by (apply Rdiv_lt_0_compat; nra).
    apply sigma_nonneg; try assumption; try lra.
    + apply linspace_ascending; lra.
    + intros t Ht. unfold scat_grid in Ht. apply linspace_in in Ht; lra.
    + intros t Ht. destruct (HPS t Ht) as (_ & A & B). unfold unpol. lra.
  - apply Reqb_false in En.
    set (dcs := scat_cdcs factorial mie I form st n x_eff').
    assert (Dx : dcs = scat_cdcs factorial mie I form st n x_eff).
    { unfold dcs. destruct Hxx as [->| ->]; [reflexivity|]. unfold scat_cdcs, cplx_dcs. reflexivity. }
    assert (Ok1 : forall t, 0 < t <= PI -> exists p s, dcs t = Ok (Some p, Some s) /\ 0 <= p /\ 0 <= s).
    { intros t Ht. rewrite Dx. unfold scat_cdcs.
      destruct (cplx_dcs_ok factorial (fun x kd => mie (scat_m I n) x t kd) (length (s_np I)) n (scat_k I n)
        (scat_distance I) (scat_x I n) x_eff (s_vf I) st form (scat_poly I (fst n)) (s_sdata I) t)
        as (S & fp & fs & S0 & P0 & Q0 & _ & _ & E); try assumption.
      - intros. apply Hm.
      - destruct x_eff as [xe|]; [now apply Hx|]. unfold scat_x. destruct (s_radius I) as [|r rs]; [congruence|]. inversion Hr; subst. left.
        apply Rgt_not_eq, Cmod_gt_0, Cmult_neq_0.
        + intros E0. apply (f_equal fst) in E0. cbn in E0. lra.
        + apply RtoC_neq, Rgt_not_eq, size_parameter_pos; lra.
      - exists (S * fp), (S * fs). split; [exact E|]. split; now apply Rmult_le_pos. }
    set (P := fun t => match dcs t with Ok (Some p, _) => p | _ => 0 end).
    set (S := fun t => match dcs t with Ok (_, Some s) => s | _ => 0 end).
    assert (Hg : forall t, In t (scat_grid I) -> dcs t = Ok (Some (P t), Some (S t)) /\ 0 <= P t /\ 0 <= S t).
    { intros t Ht. apply linspace_in in Ht; [|lra]. destruct (Ok1 t ltac:(lra)) as (p & s & E & P0 & S0). unfold P, S. rewrite E. auto. }
    exists P, S. eexists. split; [exact Hg|]. unfold scat_phase. rewrite (proj2 (Reqb_false _ _)) by exact En. cbn [negb].
    fold (scat_grid I). fold dcs. rewrite (phase_absorbing_value _ _ dcs P S) by (intros t Ht; now apply Hg).
    split; [reflexivity|]. apply weighted_nonneg; [apply surfaces_nonneg, Hc|]. intros d.
    apply Hi; [| |lra]; apply Forall_map, Forall_forall; intros t Ht; now apply Hg.
Qed.

Lemma calc_scat_full factorial ang mie integ I n :
  scat_ok_c factorial I n -> surroundings_c I n -> medium n ->
  (0 < s_fine I -> exists n', s_nmatrix I = Some n' /\ medium n') ->
  (forall m y t, 0 <= fst (ang m y t) /\ 0 <= snd (ang m y t)) ->
  (forall m y t a, 0 <= fst (mie m y t a) /\ 0 <= snd (mie m y t a)) -> (forall k, nonneg_integrator (integ k)) ->
  exists o (P S : R -> R) x_eff mu, calc_scat_any factorial ang mie integ I = Ok o
    /\ scat_medium I = Ok (n, x_eff)
    /\ (forall t, In t (scat_grid I) -> sample_dcs factorial ang mie I n x_eff t = Ok (Some (P t), Some (S t)) /\ 0 <= P t /\ 0 <= S t)
    /\ o_p o = phase_function_p (map P (scat_grid I)) (map S (scat_grid I))
    /\ o_mu o = Some mu /\ 0 <= mu /\ o_muabs o = 4 * PI * snd n / s_wavelen I
    /\ (s_fine I <= 0 -> o_mie o = None) /\ (0 < s_fine I -> exists mm, o_mie o = Some (Some mm) /\ 0 <= mm).
Proof.
  intros SO SU Hn Hmat Ha Hm Hi. pose proof SO as (H1 & H2 & H3 & H4 & H5 & H6 & H7 & H8 & H9 & H10 & H11).
  destruct (scat_medium_c I n SU H1 H2 H5 H6) as (x_eff & Em & Hx).
  destruct (rho_of_input I H1 H2 H3 H4) as (rho & Er & Ev & Hr). specialize (Hr H7).
  assert (Hx' : forall xe, x_eff = Some xe -> Exists (fun a => a <> 0) xe) by (intros xe ->; exact Hx).
  destruct (phase_any factorial ang mie integ I (form_used I) (structure_used I) n x_eff x_eff H10 H11 Ha Hm Hi H4 Hn H6 H8 H1 H2 Hx'
    (or_introl eq_refl)) as (P & S & sg & HPS & Ep & Hsg).
  unfold calc_scat_any, calc_scat. rewrite Em, (scat_types_ok I H9). cbn [bind]. rewrite Ep, Er. cbn [bind fst snd nmap2].
  destruct (Rltb 0 (s_fine I)) eqn:Ef.
  - apply Rltb_true in Ef. destruct (Hmat Ef) as (n' & En' & Hn'). rewrite En'.
    assert (H10' : form_ok factorial (length (s_np I)) (form_used I) (scat_poly I (fst n'))).
    { destruct H10 as [E|[E|(E & L & l & w & nm & Ep' & Hsp)]]; [now left|right; now left|]. right; right.
      split; [exact E|]. split; [exact L|]. unfold scat_poly in Ep' |- *.
      destruct (default_conc (s_conc I)), (s_pdi I) as [[p0 p1]|]; [|discriminate]. injection Ep' as <- <- <-. eauto. }
    destruct (phase_any factorial ang mie integ I (form_used I) S_none n' None x_eff H10' Logic.I Ha Hm Hi H4 Hn' H6 H8 H1 H2
      ltac:(discriminate) (or_intror eq_refl)) as (P' & S' & sg' & _ & Ep' & Hsg').
    rewrite Ep'. cbn [bind fst snd nmap2].
    eexists _, P, S, x_eff, (rho * sg). split; [reflexivity|]. cbn [o_p o_mu o_mie o_muabs].
    split; [reflexivity|]. split; [exact HPS|]. split; [reflexivity|]. split; [reflexivity|].
    split; [apply Rmult_le_pos; lra|]. split; [reflexivity|]. split; [intros; lra|]. intros _. exists (rho * sg').
    split; [reflexivity|apply Rmult_le_pos; lra].
  - apply Rltb_false in Ef.
    eexists _, P, S, x_eff, (rho * sg). split; [reflexivity|]. cbn [o_p o_mu o_mie o_muabs].
    split; [reflexivity|]. split; [exact HPS|]. split; [reflexivity|]. split; [reflexivity|].
    split; [apply Rmult_le_pos; lra|]. split; [reflexivity|]. split; [reflexivity|]. intros; lra.
Qed.

(** * Sampled angles *)
Lemma angles_full factorial ang mie I n (P S : R -> R) x_eff nev ntraj up ut :
  0 < s_min I <= PI -> scat_medium I = Ok (n, x_eff) ->
  (forall t, In t (scat_grid I) -> sample_dcs factorial ang mie I n x_eff t = Ok (Some (P t), Some (S t)) /\ 0 <= P t /\ 0 <= S t) ->
  scatters factorial ang mie I n -> (forall e i, 0 <= up e i < 1 /\ 0 <= ut e i < 1) ->
  exists q rows, phase_function_p (map P (scat_grid I)) (map S (scat_grid I)) = map Some q
    /\ sample_angles_1d nev ntraj q (s_min I) up ut = Ok rows.
Proof.
  intros S8 Em HPS (xe & t0 & p & s0 & Em' & Ht0 & Hlt & Ed & Hpos) Hu.
  rewrite Em in Em'. injection Em' as <-. destruct (HPS t0 Ht0) as (Ed' & _). rewrite Ed in Ed'. injection Ed' as -> ->.
  assert (Hex : exists t, In t (scat_grid I) /\ t < PI /\ 0 < P t + S t) by eauto.
  set (s := total (map (fun t => P t + S t) (scat_grid I))).
  assert (N : forall t, In t (scat_grid I) -> 0 <= P t /\ 0 <= S t) by (intros t Ht; split; now apply HPS).
  assert (N2 : forall t, In t (scat_grid I) -> 0 <= P t + S t) by (intros t Ht; destruct (N t Ht); lra).
  assert (Hs : 0 < s).
  { clear - Ht0 Hpos N2. unfold s, scat_grid in *. rewrite linspace_grid in *. rewrite map_map.
    apply in_map_iff in Ht0 as (k & E & Hk). apply in_seq in Hk.
    apply (total_pos_at (fun i => P (grid (s_min I) PI (s_num I) i) + S (grid (s_min I) PI (s_num I) i)) (s_num I) k).
    - intros i Hi. apply N2. apply in_map, in_seq. lia.
    - lia.
    - now rewrite E. }
  destruct (draws_1d (fun t => P t + S t) s (s_min I) (s_num I) nev ntraj up ut S8 Hs N2 Hex Hu) as (l & El & Ll & Hl).
  exists (map (fun t => (P t + S t) / s) (scat_grid I)), l.
  split; [rewrite map_map; apply (phase_dist P S (scat_grid I) N); fold s; lra|]. exact El.
Qed.

(** * The run *)
Definition steps_ok (nev : nat) (steps : list (list R)) : Prop :=
  length steps = nev /\ forall i, Forall (fun x => 0 <= x) (map (fun row => nth i row 0) steps).

Lemma step_table nev ntraj mu mie fine u um : (0 < nev)%nat -> 0 < mu -> (forall mm, mie = Some mm -> 0 < mm) -> 0 <= fine <= 1 ->
  (forall n i, 0 <= u n i < 1) -> (forall i, 0 <= um i < 1) ->
  exists steps, sample_step ntraj mu mie fine (uniform_rows nev ntraj u) um = Ok steps /\ steps_ok nev steps.
Proof.
  intros Hn Hmu Hmm Hf Hu Hum. destruct mie as [mm|].
  - specialize (Hmm mm eq_refl).
    destruct nev as [|nev]; [lia|]. unfold uniform_rows. cbn [seq map].
    destruct (sample_step_mie ntraj mu mm fine (map (u 0%nat) (seq 0 ntraj)) (map (fun n => map (u n) (seq 0 ntraj)) (seq 1 nev)) um Hf
      ltac:(now rewrite map_length, seq_length)) as (m & step0 & E & _ & Hm & L & A & B).
    eexists. split; [exact E|]. split; [cbn [length]; now rewrite !map_length, seq_length|]. intros i. cbn [map]. constructor.
    + destruct (Nat.lt_ge_cases i m) as [Hi|Hi].
      * rewrite A by exact Hi. apply step_nonneg; [exact Hmm|apply Hum].
      * destruct (Nat.lt_ge_cases i ntraj) as [Hi'|Hi'].
        -- rewrite B by lia. apply step_nonneg; [exact Hmu|].
           rewrite (nth_indep _ 0 (u 0%nat 0%nat)) by (rewrite map_length, seq_length; exact Hi').
           rewrite (map_nth (u 0%nat)). apply Hu.
        -- rewrite nth_overflow by lia. lra.
    + pose proof (column_nonneg (S nev) ntraj mu u i Hmu Hu) as F. unfold uniform_rows in F. cbn [seq map] in F. inversion F; assumption.
  - rewrite sample_step_single by exact Hf. eexists. split; [reflexivity|]. split.
    + unfold uniform_rows. now rewrite !map_length, seq_length.
    + intros i. now apply column_nonneg.
Qed.

Lemma trajs_ok nev ntraj mua ang steps starts (Q : nat -> vec -> vec -> Prop) :
  (0 < nev)%nat -> steps_ok nev steps -> 0 <= mua -> length starts = ntraj ->
  (forall j s, nth_error starts j = Some s -> exists p k, s = (p, Some k, repeat 1 nev) /\ Q j p k) ->
  exists T, run_trajs nev mua ang steps 0 starts = Ok (Some (map T (seq 0 ntraj)))
    /\ forall i, (i < ntraj)%nat -> exists p k, Q i p k
        /\ wf_len (T i) /\ nth 0 (t_pos (T i)) vzero = p /\ nth 0 (t_dir (T i)) vzero = k
        /\ (unit k -> dirs_ok (T i)) /\ col_ok 1 (T i) /\ (mua = 0 -> flat 1 (T i)).
Proof.
  intros Hn [Hsl Hc] Ha Hl H.
  destruct (run_trajs_ok nev mua ang steps Q Hn Hsl starts 0 H) as (trs & E & El & Ht).
  exists (fun i => nth i trs (mk_traj [] [] [])). split.
  - rewrite E. rewrite <- Hl, <- El. do 2 f_equal. apply L_simulation.list_as_map.
  - intros i Hi. destruct (Ht i ltac:(lia)) as (p & k & HQ & Hw & Hd & Hp & Hk & Hf & Ew).
    cbn [Nat.add] in *. exists p, k. split; [exact HQ|]. split; [exact Hw|]. split; [exact Hp|]. split; [exact Hk|].
    set (col := map (fun row => nth i row 0) steps) in *.
    assert (Hcl : length col = nev) by (unfold col; now rewrite map_length).
    assert (Hc0 : Forall (fun x => 0 <= x) col) by apply Hc.
    split; [|split].
    + intros U. unfold dirs_ok. eapply Forall_impl; [|exact Hf]. intros v Hv. now apply (vlen_unit_vz v k).
    + split; [exact Hw|]. rewrite Ew. apply Forall_forall. intros w Hin.
      apply (In_nth _ _ 0) in Hin as (j & Hj & <-).
      rewrite absorb_length in Hj by (rewrite repeat_length; lia).
      pose proof (absorb_bounds mua 1 col j Ha ltac:(lra) Hc0 Hj) as B. rewrite Hcl in B. exact B.
    + intros ->. unfold flat. rewrite Ew, absorb_zero by (rewrite repeat_length; lia). now rewrite Hd.
Qed.

Lemma surface_run_ok nev ntraj spot tmin tmax pmin pmax mu mie fine r P D uf um :
  (0 < nev)%nat -> (0 < ntraj)%nat -> 0 < spot -> 0 < mu -> (forall mm, mie = Some mm -> 0 < mm) -> 0 <= fine <= 1 -> 0 <= p_muabs P ->
  in01 (d_l0 D) -> in01 (d_l1 D) -> (forall n i, 0 <= d_u D n i < 1) -> (forall i, 0 <= uf i < 1) -> (forall i, 0 <= um i < 1) ->
  valid_params P ntraj -> 0 < p_nmedium P <= p_nsample P ->
  p_kz0rot P = None -> p_kz0refl P = None -> p_boundary P = M_montecarlo.film -> p_run P = false ->
  exists oo, surface_film_run nev ntraj spot tmin tmax pmin pmax mu mie fine r P D uf um = Ok oo
    /\ forall o, oo = Some o ->
         0 <= o_refl o /\ 0 <= o_trans o /\ o_refl o + o_trans o <= 1
         /\ (r = 0 -> plain P -> full_detection P -> p_muabs P = 0 -> o_refl o + o_trans o = 1).
Proof.
  intros Hn Ht Hsp Hm Hmm Hfi Ha H0 H1 Hu Huf Hum Hv Hns Hk1 Hk2 Hb Hr. unfold surface_film_run.
  destruct (step_table nev ntraj mu mie fine (d_u D) um Hn Hm Hmm Hfi Hu Hum) as (steps & Es & Hst).
  assert (G : forall starts P', length starts = ntraj -> p_boundary P' = M_montecarlo.film -> p_run P' = false -> p_muabs P' = p_muabs P ->
    valid_params P' ntraj -> (p_kz0rot P' = None <-> p_kz0refl P' = None) ->
    (forall j s, nth_error starts j = Some s -> exists p k, s = (p, Some k, repeat 1 nev) /\ unit k) ->
    exists oo, bind (sample_step ntraj mu mie fine (uniform_rows nev ntraj (d_u D)) um) (fun steps =>
      bind (run_trajs nev (p_muabs P) (d_ang D) steps 0 starts) (fun ts =>
      match ts with None => Ok None | Some trs => calc_refl_trans 22 (d_rang D) (d_rstep D) P' false 0 trs end)) = Ok oo
    /\ forall o, oo = Some o -> 0 <= o_refl o /\ 0 <= o_trans o /\ o_refl o + o_trans o <= 1
         /\ (P' = P -> plain P -> full_detection P -> p_muabs P = 0 -> o_refl o + o_trans o = 1)).
  { intros starts P' Ll Hb' Hr' Hab Hv' Hkk HQ. rewrite Es. cbn [bind].
    destruct (trajs_ok nev ntraj (p_muabs P) (d_ang D) steps starts (fun _ _ k => unit k) Hn Hst Ha Ll HQ) as (T & -> & HT).
    cbn [bind].
    destruct (film_never_raises 21 (d_rang D) (d_rstep D) P' false 0 (map T (seq 0 ntraj)) Hb') as [oo E].
    { exact Hkk. } { exact Hr'. }
    exists oo. split; [exact E|]. intros o ->.
    assert (Hfr : forall i, (i < ntraj)%nat -> col_ok 1 (T i)) by
      (intros i Hi; destruct (HT i Hi) as (p & k & _ & _ & _ & _ & _ & Hc & _); exact Hc).
    assert (E' : calc_refl_trans 22 (d_rang D) (fun _ _ _ => 0) P' false 0 (map T (seq 0 ntraj)) = Ok (Some o)) by
      (rewrite <- E; apply no_rerun_draws; exact Hr').
    destruct (fractions_hold 22 (d_rang D) (fun _ _ _ => 0) P' 0 ntraj T o Ht Hv' (or_introl Hb') ltac:(lra)
       ltac:(intros; lra) Hfr E') as (A1 & A2 & A3 & _).
    split; [exact A1|]. split; [exact A2|]. split; [exact A3|].
    intros -> Hp Hfd Hz. eapply film_conserves; eauto. intros i Hi.
    destruct (HT i Hi) as (p & k & Uk & Hw & _ & _ & Hd & _ & Hfl). repeat split; try apply Hw; auto. }
  destruct (Reqb r 0) eqn:Er0.
  - apply Reqb_true in Er0. 
    destruct (initialize_film_ok nev ntraj spot None None tmin tmax pmin pmax (p_nmedium P) (p_nsample P)
       (d_l0 D) (d_l1 D) (d_l2 D) (d_l3 D) Hsp ltac:(lra) ltac:(lra) H0 H1 ltac:(discriminate) ltac:(discriminate))
      as (l & -> & Hl & Hst'). cbn [bind fst snd].
    destruct (G l P Hl Hb Hr eq_refl Hv) as (oo & E & H).
    { rewrite Hk1, Hk2. tauto. }
    { intros j s Hj. specialize (Hst' j s Hj). destruct s as [[p d] w]. cbn in Hst'.
      destruct Hst' as (_ & _ & _ & -> & Hd & Hk). destruct d as [k|]; [|exfalso; apply Hd; [lra|reflexivity]].
      exists p, k. split; [reflexivity|]. now apply Hk. }
    exists oo. split; [exact E|]. intros o Ho. destruct (H o Ho) as (A1 & A2 & A3 & A4). auto 10.
  - apply Reqb_false in Er0.
    destruct (rough_launch_ok nev ntraj spot tmin tmax pmin pmax (p_nmedium P) (p_nsample P) r (d_l0 D) (d_l1 D) (d_l2 D) (d_l3 D) uf Hns Er0
      (fun i _ => Huf i)) as (starts & facets & E0 & Hl & Hfac & Hst').
    rewrite E0. cbn [bind fst snd].
    match goal with |- context [with_rough P ?a ?b] => destruct (G starts (with_rough P a b)) as (oo & E & H); try assumption end; try reflexivity.
    { apply with_rough_valid; [exact Hv| |]; now rewrite map_length, seq_length. }
    { cbn. split; discriminate. }
    { intros j s Hj. destruct (Hst' j s Hj) as (k' & -> & Hk). eexists _, k'. split; [reflexivity|].
      cbv zeta in Hk. match type of Hk with context [rough_enter1 ?a ?b ?c ?d] => destruct (rough_enter1 a b c d) as [[a0 b0] c0] eqn:Er end.
      cbn [fst] in Hk. subst a0. eapply rough_refracted_unit; [|exact Er]. rewrite Rabs_right by lra. lra. }
    exists oo. split; [exact E|]. intros o Ho. destruct (H o Ho) as (A1 & A2 & A3 & _).
    split; [exact A1|]. split; [exact A2|]. split; [exact A3|]. intros; contradiction.
Qed.
