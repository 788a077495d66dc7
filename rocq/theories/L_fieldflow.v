(** Proofs about whole calculations with fields (C152). *)
From Coq Require Import Lra Lia Psatz.
From Verif Require Import Num Spec Spec_polarization Spec_fields Spec_detector M_init M_montecarlo M_detector M_simulation
  M_polarization M_fields M_workflow M_fieldflow L_num L_init L_montecarlo L_montecarlo2 L_outcomes L_slots L_accounting L_simulation L_exits
  L_polarization L_fields L_bulk3 Properties_returned Properties_fields Properties_tight.
From Coquelicot Require Import Complex.
Open Scope R_scope.

Lemma all_some_map {A} (l : list A) : all_some (map Some l) = Some l.
Proof. induction l as [|a l IH]; [reflexivity|]. cbn. now rewrite IH. Qed.

Definition start_column (n : nat) (f : field) : list field := f :: f :: repeat fzero n.

(** The initial fields of all trajectories. *)
Lemma initial_ok coherent polarized nev ntraj ux uy : (0 < nev)%nat ->
  exists E : nat -> field,
    initial_fields coherent polarized nev ntraj ux uy
      = Ok (Some (map (fun i => start_column (nev - 1) (E i)) (seq 0 ntraj)))
    /\ forall i, strength (E i) = 1 /\ fz (E i) = RtoC 0.
Proof.
  intros Hn. destruct nev as [|n]; [lia|]. replace (S n - 1)%nat with n by lia.
  assert (H : forall i, exists f, init_fields coherent polarized (S n) (ux i) (uy i) = Ok (Some (start_column n f))
     /\ strength f = 1 /\ fz f = RtoC 0).
  { intros i. destruct (init_fields_spec coherent polarized n (ux i) (uy i)) as (f & E & H1 & H2 & _). exists f. auto. }
  set (E := fun i => match init_fields coherent polarized (S n) (ux i) (uy i) with Ok (Some (f :: _)) => f | _ => fzero end).
  exists E. split.
  - unfold initial_fields.
    assert (M : forall l, mapM (fun i => init_fields coherent polarized (S n) (ux i) (uy i)) l
        = Ok (map Some (map (fun i => start_column n (E i)) l))).
    { induction l as [|i l IH]; [reflexivity|]. cbn [mapM map]. destruct (H i) as (f & Ef & _).
      unfold E at 1. rewrite Ef. cbn [bind]. rewrite IH. reflexivity. }
    rewrite M. cbn [bind]. now rewrite all_some_map.
  - intros i. destruct (H i) as (f & Ef & Hf). unfold E. rewrite Ef. exact Hf.
Qed.

Lemma start_along_z n f : fz f = RtoC 0 -> along_z (start_column n f).
Proof.
  intros Hf [|[|e]]; try exact Hf. cbn [start_column nth].
  destruct (Nat.lt_ge_cases e (length (repeat fzero n))) as [L|L].
  - rewrite repeat_length in L. now rewrite nth_repeat.
  - rewrite nth_overflow by exact L. reflexivity.
Qed.

(** The directions of a run are those [scatter] computes. *)
Lemma run_trajs_scatter nev mu ang steps : forall l i trs,
  run_trajs nev mu ang steps i l = Ok (Some trs) ->
  forall j p d w, nth_error l j = Some (p, d, w) ->
  exists k, d = Some k /\
    scatter (k :: repeat vzero (nev - 1)) (map (ang (i + j)%nat) (seq 0 (nev - 1)))
    = Ok (t_dir (nth j trs (mk_traj [] [] []))).
Proof.
  induction l as [|s l IH]; intros i trs H j p d w Hj; [destruct j; discriminate|].
  cbn [run_trajs] in H.
  destruct (run_traj nev mu (ang i) (map (fun row => nth i row 0) steps) s) as [t|] eqn:Et; [|discriminate].
  cbn [bind] in H. destruct (run_trajs nev mu ang steps (S i) l) as [ts|] eqn:Es; [|discriminate].
  cbn [bind] in H. destruct t as [t|]; [|discriminate]. destruct ts as [ts|]; [|discriminate].
  assert (trs = t :: ts) as -> by congruence.
  destruct j as [|j]; cbn [nth_error] in Hj.
  - assert (s = (p, d, w)) as -> by congruence. unfold run_traj in Et. destruct d as [k|]; [|discriminate].
    exists k. split; [reflexivity|]. rewrite Nat.add_0_r. cbn [nth].
    destruct (scatter (k :: repeat vzero (nev - 1)) (map (ang i) (seq 0 (nev - 1)))) as [dirs|]; [|discriminate].
    cbn [bind] in Et. f_equal. injection Et as <-. reflexivity.
  - destruct (IH (S i) ts Es j p d w Hj) as (k & E & Hs). exists k. split; [exact E|].
    cbn [nth]. replace (i + S j)%nat with (S i + j)%nat by lia. exact Hs.
Qed.

Lemma mapM_map {A B} (f : A -> result B) (l : list A) out : mapM f l = Ok out ->
  length out = length l.
Proof. intros H. exact (proj1 (mapM_nth f l out H)). Qed.

Lemma calc_fields_length amp n lam trs fss angs :
  calc_fields amp n lam false trs = Ok (fss, angs) -> length fss = length trs.
Proof.
  intros H. unfold calc_fields in H. cbn [andb] in H.
  match type of H with bind (mapM ?f trs) _ = _ => destruct (mapM f trs) as [out|] eqn:E end; cbn [bind] in H; [|discriminate].
  assert (fss = out) as -> by (injection H; auto). exact (mapM_map _ _ _ E).
Qed.

(** An entrance along the normal stays along the normal. *)
Lemma entry_normal cp sp nm ns : entry_dir 0 cp sp nm ns = Some ez.
Proof.
  unfold entry_dir, refraction. rewrite sin_0, Rmult_0_r, Rabs_R0.
  rewrite (proj2 (Rltb_false 1 0)) by lra. rewrite asin_0, sin_0, cos_0. unfold ez. do 2 f_equal. f_equal; ring.
Qed.

(** Everything about one run on a film, up to the call of calc_refl_trans. *)
Lemma fields_run_parts nev ntraj spot tmin tmax pmin pmax mu amp nk wavelen coherent polarized documented det P D ux uy :
  (0 < nev)%nat -> (0 < ntraj)%nat -> 0 < spot -> 0 < mu -> 0 <= p_muabs P ->
  in01 (d_l0 D) -> in01 (d_l1 D) -> (forall n i, 0 <= d_u D n i < 1) ->
  0 < p_nmedium P <= p_nsample P ->
  exists T E fss,
    fields_run nev ntraj spot tmin tmax pmin pmax mu amp nk wavelen coherent polarized documented det P D ux uy
    = bind (calc_refl_trans 22 (d_rang D) (d_rstep D) P false 0 (map T (seq 0 ntraj))) (fun oo =>
      match oo with
      | None => Ok None
      | Some o =>
          bind (calc_refl_co_cross_fields fss (o_refl_i o) (handed documented o) det) (fun c =>
          Ok (Some (map T (seq 0 ntraj), fss, o, c))) end)
    /\ film_run nev ntraj spot tmin tmax pmin pmax mu P D
       = calc_refl_trans 22 (d_rang D) (d_rstep D) P false 0 (map T (seq 0 ntraj))
    /\ length fss = ntraj
    /\ (forall i, (i < ntraj)%nat -> wf_len (T i) /\ length (t_dir (T i)) = nev /\ col_ok 1 (T i))
    /\ (forall i e, strength (nth e (nth i fss []) fzero) = 1 \/ nth e (nth i fss []) fzero = fzero)
    /\ (forall i, (i < ntraj)%nat -> length (nth i fss []) = S nev
         /\ nth 0 (nth i fss []) fzero = E i /\ strength (E i) = 1 /\ fz (E i) = RtoC 0
         /\ ((forall n, (n < nev - 1)%nat -> let '(S1, S2, S3, S4) := amp (fst (d_ang D i n)) (snd (d_ang D i n)) in
                                   S1 <> RtoC 0 /\ S2 <> RtoC 0) ->
             forall e, (e <= nev)%nat -> strength (nth e (nth i fss []) fzero) = 1)
         /\ (tmin = 0 -> tmax = 0 -> forall e, transverse (nth (S e) (nth i fss []) fzero) (nth e (t_dir (T i)) vzero))).
Proof.
  intros Hn Ht Hsp Hm Ha H0 H1 Hu Hns. unfold fields_run, film_run.
  destruct (initialize_film_ok nev ntraj spot None None tmin tmax pmin pmax (p_nmedium P) (p_nsample P)
     (d_l0 D) (d_l1 D) (d_l2 D) (d_l3 D) Hsp ltac:(lra) ltac:(lra) H0 H1 ltac:(discriminate) ltac:(discriminate))
    as (l & El & Hl & Hst). rewrite El. cbn [bind].
  destruct (initial_ok coherent polarized nev ntraj ux uy Hn) as (E & EE & HE). rewrite EE. cbn [bind].
  destruct (trajectories_ok nev ntraj mu (p_muabs P) D l (fun _ _ k => unit k) Hn Hm Hu Ha Hl) as (T & ET & HT).
  { intros j s Hj. specialize (Hst j s Hj). destruct s as [[p d] w]. cbn in Hst.
    destruct Hst as (_ & _ & _ & -> & Hd & Hk). destruct d as [k|]; [|exfalso; apply Hd; [lra|reflexivity]].
    exists p, k. split; [reflexivity|]. now apply Hk. }
  pose proof ET as ET2. rewrite ET. unfold trajectories in ET2. rewrite sample_step_single in ET2 by lra.
  rewrite sample_step_single by lra. cbn [bind] in ET2 |- *.
  set (steps := map (map (step_of mu)) (uniform_rows nev ntraj (d_u D))) in *.
  assert (Hsl : length steps = nev) by (unfold steps, uniform_rows; now rewrite !map_length, seq_length).
  rewrite ET2. cbn [bind].
  set (trs := map T (seq 0 ntraj)) in *.
  set (E0 := map (fun i => start_column (nev - 1) (E i)) (seq 0 ntraj)).
  set (FT := field_traj nev D steps trs E0).
  assert (HTi : forall i, (i < ntraj)%nat -> nth i trs (mk_traj [] [] []) = T i).
  { intros i Hi. unfold trs. rewrite (nth_indep _ _ (T 0%nat)) by (rewrite map_length, seq_length; exact Hi).
    rewrite map_nth, seq_nth by exact Hi. reflexivity. }
  assert (HEi : forall i, (i < ntraj)%nat -> nth i E0 [] = start_column (nev - 1) (E i)).
  { intros i Hi. unfold E0. rewrite (nth_indep _ _ (start_column (nev - 1) (E 0%nat))) by (rewrite map_length, seq_length; exact Hi).
    rewrite (map_nth (fun i => start_column (nev - 1) (E i))), seq_nth by exact Hi. reflexivity. }
  assert (Hlf : forall i, (i < ntraj)%nat -> length (ft_fields (FT i)) = S nev).
  { intros i Hi. unfold FT, field_traj. cbn [ft_fields]. rewrite HEi by exact Hi. unfold start_column. cbn [length]. rewrite repeat_length. lia. }
  assert (Hla : forall i, length (ft_angles (FT i)) = (nev - 1)%nat).
  { intros i. unfold FT, field_traj. cbn [ft_angles]. now rewrite map_length, seq_length. }
  destruct (proj1 (C141_fields_errors amp nk wavelen false (map FT (seq 0 ntraj)))) as (fss & angs & EF).
  { split; [|discriminate]. intros t Hin. apply in_map_iff in Hin as (i & <- & Hi). apply in_seq in Hi.
    rewrite Hlf by lia. rewrite Hla. lia. }
  rewrite EF. cbn [bind fst].
  assert (Hne : forall i, (i < ntraj)%nat -> nth_error (map FT (seq 0 ntraj)) i = Some (FT i)).
  { intros i Hi. apply map_nth_error. rewrite (nth_error_nth' _ 0%nat) by (now rewrite seq_length). now rewrite seq_nth. }
  exists T, E, fss. split; [reflexivity|]. split; [reflexivity|].
  split. { rewrite (calc_fields_length _ _ _ _ _ _ EF). now rewrite map_length, seq_length. }
  split. { intros i Hi. destruct (HT i Hi) as (p & k & _ & Hw & _ & _ & _ & Hc & _). split; [exact Hw|]. split; [|exact Hc].
    destruct (run_trajs_ok nev (p_muabs P) (d_ang D) steps (fun _ _ k => unit k) Hn Hsl l 0) as (trs' & E' & El' & Ht').
    { intros j s Hj. specialize (Hst j s Hj). destruct s as [[p' d'] w']. cbn in Hst.
      destruct Hst as (_ & _ & _ & -> & Hd & Hk). destruct d' as [k'|]; [|exfalso; apply Hd; [lra|reflexivity]].
      exists p', k'. split; [reflexivity|]. now apply Hk. }
    assert (trs' = trs) as -> by congruence.
    destruct (Ht' i (eq_ind_r (fun x => (i < x)%nat) Hi Hl)) as (_ & _ & _ & _ & Hd & _). rewrite HTi in Hd by exact Hi. exact Hd. }
  split. { intros i e. exact (C106_unit_or_zero amp nk wavelen false _ _ _ i e EF). }
  intros i Hi. destruct (HE i) as [S1 Z1].
  assert (Hz : along_z (ft_fields (FT i))).
  { unfold FT, field_traj. cbn [ft_fields]. rewrite HEi by exact Hi. now apply start_along_z. }
  assert (Hls : length (ft_steps (FT i)) = pred (length (ft_fields (FT i)))).
  { rewrite Hlf by exact Hi. unfold FT, field_traj. cbn [ft_steps]. now rewrite map_length. }
  destruct (column_nth _ _ _ _ _ _ Hz (calc_fields_column _ _ _ _ _ _ _ _ EF (Hne i Hi)) Hls) as (L & N0 & _ & _).
  assert (F0 : nth 0 (ft_fields (FT i)) fzero = E i) by (unfold FT, field_traj; cbn [ft_fields]; rewrite HEi by exact Hi; reflexivity).
  assert (F1 : nth 1 (ft_fields (FT i)) fzero = E i) by (unfold FT, field_traj; cbn [ft_fields]; rewrite HEi by exact Hi; reflexivity).
  assert (Enz : E i <> fzero).
  { intros K. rewrite K in S1. rewrite L_polarization.strength_zero in S1. lra. }
  split; [rewrite L; now apply Hlf|]. split.
  { rewrite N0, F0. unfold fnormalize0.
    assert (fmag (E i) = 1) as ->.
    { pose proof (fmag_sq (E i)) as Q. pose proof (fmag_pos (E i)) as Q2. rewrite S1 in Q. apply (Rmult_eq_reg_l (fmag (E i) + 1)); [cbn [pow] in Q; lra|lra]. }
    rewrite (proj2 (Reqb_false 1 0)) by lra. unfold fdiv. destruct (E i) as [[a b] c]. unfold fx, fy, fz. cbn [fst snd].
    f_equal; [f_equal|]; unfold Cdiv; rewrite <- RtoC_inv by lra; rewrite Rinv_1; ring. }
  split; [exact S1|]. split; [exact Z1|]. split.
  - intros Hamp. destruct (all_unit amp nk wavelen _ _ _ i (FT i) (Hne i Hi) Hz Hls EF) as (_ & U).
    + rewrite F0. exact Enz.
    + rewrite F1. exact Enz.
    + intros a Hin. unfold FT, field_traj in Hin. cbn [ft_angles] in Hin. apply in_map_iff in Hin as (n & <- & Hin).
      apply in_seq in Hin. exact (Hamp n ltac:(lia)).
    + intros e He. apply U. rewrite Hlf by exact Hi. lia.
  - intros -> ->.
    assert (Hie : exists p w, nth_error l i = Some (p, Some ez, w)).
    { unfold initialize_film in El. cbv beta iota zeta in El.
      assert (El' : l = map (fun i => ((d_l0 D i * spot, d_l1 D i * spot, 0),
               entry_dir (uniform 0 0 (d_l2 D i)) (cos (uniform pmin pmax (d_l3 D i))) (sin (uniform pmin pmax (d_l3 D i))) (p_nmedium P) (p_nsample P),
               repeat 1 nev)) (seq 0 ntraj)) by (injection El as <-; reflexivity).
      do 2 eexists. rewrite El'. rewrite (map_nth_error _ i (seq 0 ntraj) (d := i)).
      - replace (uniform 0 0 (d_l2 D i)) with 0 by (unfold uniform; ring). rewrite entry_normal. reflexivity.
      - rewrite (nth_error_nth' _ 0%nat) by (now rewrite seq_length). now rewrite seq_nth. }
    destruct Hie as (p & w & Hie).
    destruct (run_trajs_scatter _ _ _ _ _ _ _ ET2 i p (Some ez) w Hie) as (k & Ek & Hsc).
    assert (k = ez) as -> by congruence. cbn [Nat.add] in Hsc. rewrite HTi in Hsc by exact Hi.
    exact (C105_fields_transverse amp nk wavelen _ _ _ i (FT i) _ _ (Hne i Hi) Hz Hsc EF).
Qed.

Lemma over_reflected_le n (J : nat -> nat) g h :
  (forall i, (i < n)%nat -> g i <= h i) -> over_reflected n J g <= over_reflected n J h.
Proof.
  intros H. unfold over_reflected. rewrite <- !Rsum_total. apply sum_le. intros i Hi. apply in_seq in Hi.
  destruct (Nat.eqb (J i) 0); [lra|]. apply H. lia.
Qed.
Lemma over_reflected_all n (J : nat -> nat) g :
  (forall i, (i < n)%nat -> 0 <= g i) -> 0 <= over_reflected n J g <= total (map g (seq 0 n)).
Proof.
  intros H. unfold over_reflected. rewrite <- !Rsum_total. split.
  - rewrite Rsum_total. apply total_map_nonneg. intros i Hi. apply in_seq in Hi.
    destruct (Nat.eqb (J i) 0); [lra|]. apply H. lia.
  - apply sum_le. intros i Hi. apply in_seq in Hi. specialize (H i ltac:(lia)). destruct (Nat.eqb (J i) 0); lra.
Qed.

(** The reflectances handed on and the events of a run. *)
Lemma handed_ok fuel angs steps P n nev T o documented :
  (0 < n)%nat -> valid_params P n -> p_boundary P = M_montecarlo.film -> p_run P = false -> 0 <= p_muabs P ->
  (forall i, (i < n)%nat -> length (t_dir (T i)) = nev /\ col_ok 1 (T i)) ->
  calc_refl_trans (S fuel) angs steps P false 0 (map T (seq 0 n)) = Ok (Some o) ->
  o_refl_i o = map (fun i => nth i (o_refl_i o) 0%nat) (seq 0 n)
  /\ handed documented o = map (fun i => nth i (handed documented o) 0) (seq 0 n)
  /\ (forall i, (i < n)%nat -> (nth i (o_refl_i o) 0%nat <= nev)%nat
       /\ 0 <= nth i (handed documented o) 0 <= 1 / INR n
       /\ (documented = false -> nth i (o_refl_i o) 0%nat = 0%nat -> nth i (o_refl_pass o) 0 = 0))
  /\ o_refl o = total (o_refl_per o) /\ o_refl o <= 1.
Proof.
  intros Hn Hv Hb Hr Ha HT H.
  assert (HC : forall i, (i < n)%nat -> col_ok 1 (T i)) by (intros i Hi; apply HT, Hi).
  assert (H' : calc_refl_trans (S fuel) angs (fun _ _ _ => 0) P false 0 (map T (seq 0 n)) = Ok (Some o))
    by (rewrite <- H; apply no_rerun_draws; exact Hr).
  destruct (fractions_hold (S fuel) angs (fun _ _ _ => 0) P 0 n T o Hn Hv (or_introl Hb) Ha
     ltac:(intros; lra) HC H') as (A1 & A2 & A3 & A4 & _ & A5 & _ & A6).
  pose proof (valid_good P n Hv) as Hg.
  destruct (outcome_slots _ _ _ _ _ _ _ _ _ Hg H) as (inc & di & Hinc & Hdi & Har & Hat & _ & E2 & _ & _ & _ & E6 & _).
  assert (LI : length (o_refl_i o) = n) by (rewrite E6; now rewrite map_length, seq_length).
  assert (LP : length (o_refl_pass o) = n) by (rewrite E2; now rewrite map_length, seq_length).
  assert (LH : length (handed documented o) = n) by (unfold handed; destruct documented; assumption).
  assert (HI : 0 < / INR n) by (apply Rinv_0_lt_compat, lt_0_INR; exact Hn).
  split; [rewrite <- LI; apply L_simulation.list_as_map|].
  split; [rewrite <- LH; apply L_simulation.list_as_map|].
  split; [|split; [exact A4|lra]].
  intros i Hi. destruct (HT i Hi) as [Hd Hc].
  assert (Ei : nth i (o_refl_i o) 0%nat = sl_ri P T i) by (rewrite E6; now apply nth_map_seq_n).
  assert (Ep : nth i (o_refl_pass o) 0 = sl_rp P T inc i / INR n) by (rewrite E2; now apply (nth_map_seq_R (fun i => sl_rp P T inc i / INR n))).
  rewrite Ei. split; [|split].
  - destruct (sl_cases P T i (proj1 Hc)) as [(-> & _)|[(_ & _ & L & _)|(-> & _)]]; lia.
  - unfold handed. destruct documented.
    + destruct (A6 i Hi) as (B1 & B2 & B3). lra.
    + rewrite Ep. destruct (slot_bounds P false n T inc Hg Hinc Har Hat 1 i Hi Rle_0_1 Hc) as (B1 & B2 & B3 & B4 & B5 & _).
      destruct (Hinc i Hi) as [Hin _]. unfold Rdiv. split; [apply Rmult_le_pos; lra|]. apply Rmult_le_compat_r; lra.
  - intros _ K. rewrite Ep. unfold sl_rp, sl_rw. rewrite K. cbn [select_col]. unfold Rdiv. ring.
Qed.

Lemma fields_run_ok nev ntraj spot tmin tmax pmin pmax mu amp nk wavelen coherent polarized documented det P D ux uy :
  (0 < nev)%nat -> (0 < ntraj)%nat -> 0 < spot -> 0 < mu -> 0 <= p_muabs P ->
  in01 (d_l0 D) -> in01 (d_l1 D) -> (forall n i, 0 <= d_u D n i < 1) ->
  valid_params P ntraj -> 0 < p_nmedium P <= p_nsample P ->
  p_kz0rot P = None -> p_kz0refl P = None -> p_boundary P = M_montecarlo.film -> p_run P = false ->
  exists oo, fields_run nev ntraj spot tmin tmax pmin pmax mu amp nk wavelen coherent polarized documented det P D ux uy = Ok oo
    /\ film_run nev ntraj spot tmin tmax pmin pmax mu P D = Ok (option_map (fun r => snd (fst r)) oo)
    /\ forall trs fss o co cr perp coh inc, oo = Some (trs, fss, o, (co, cr, perp, coh, inc)) ->
       let ev i := nth i (o_refl_i o) 0%nat in
       let r i := nth i (handed documented o) 0 in
       let out i := nth (ev i) (nth i fss []) fzero in
       length trs = ntraj /\ length fss = ntraj
       /\ (forall i, (i < ntraj)%nat -> length (nth i fss []) = S nev /\ (ev i <= nev)%nat
             /\ strength (nth 0 (nth i fss []) fzero) = 1)
       /\ 0 <= co /\ 0 <= cr /\ 0 <= perp /\ co + cr + perp = INR ntraj * coh
       /\ 0 <= coh <= INR (reflected ntraj ev) * inc
       /\ 0 <= inc <= over_reflected ntraj ev r
       /\ over_reflected ntraj ev r <= 1
       /\ (documented = true -> over_reflected ntraj ev r <= o_refl o)
       /\ (documented = false -> over_reflected ntraj ev r = total (o_refl_pass o))
       /\ ((forall i n, let '(S1, S2, S3, S4) := amp (fst (d_ang D i n)) (snd (d_ang D i n)) in S1 <> RtoC 0 /\ S2 <> RtoC 0) ->
           inc = over_reflected ntraj ev r)
       /\ (tmin = 0 -> tmax = 0 -> forall i, (i < ntraj)%nat -> ev i <> 0%nat ->
           transverse (out i) (nth (ev i - 1) (t_dir (nth i trs (mk_traj [] [] []))) vzero)).
Proof.
  intros Hn Ht Hsp Hm Ha H0 H1 Hu Hv Hns Hk1 Hk2 Hb Hr.
  destruct (fields_run_parts nev ntraj spot tmin tmax pmin pmax mu amp nk wavelen coherent polarized documented det P D ux uy
     Hn Ht Hsp Hm Ha H0 H1 Hu Hns) as (T & E & fss & -> & EF & Lf & HT & Huz & Hf). rewrite EF. clear EF.
  destruct (film_never_raises 21 (d_rang D) (d_rstep D) P false 0 (map T (seq 0 ntraj)) Hb) as [oo EO].
  { rewrite Hk1, Hk2. tauto. } { exact Hr. }
  change (calc_refl_trans (S 21)) with (calc_refl_trans 22) in EO. rewrite EO. cbn [bind].
  destruct oo as [o|]; [|exists None; split; [reflexivity|]; split; [reflexivity|intros; discriminate]].
  destruct (handed_ok 21 (d_rang D) (d_rstep D) P ntraj nev T o documented Ht Hv Hb Hr Ha
     (fun i Hi => proj2 (HT i Hi)) EO) as (EI & EH & Hper & Hsum & Hle).
  set (ev := fun i => nth i (o_refl_i o) 0%nat) in *. set (r := fun i => nth i (handed documented o) 0) in *.
  set (F := fun i => nth i fss []).
  assert (EFs : fss = map F (seq 0 ntraj)) by (rewrite <- Lf; apply L_simulation.list_as_map).
  assert (FR : field_run ntraj nev F ev r).
  { split; [exact Ht|]. intros i Hi. split; [apply (Hf i Hi)|]. destruct (Hper i Hi) as (B1 & B2 & _). split; [exact B1|apply B2]. }
  destruct (co_cross_sum ntraj nev F ev r det FR) as (tx & ty & tz & co & cr & perp & coh & inc & EP & EC & P1 & P2 & P3 & _ & _ & _ & P4).
  destruct (phase_fields_spec ntraj nev F ev r FR) as (tx' & ty' & tz' & coh' & inc' & EP' & _ & _ & Hinc & Hcoh).
  rewrite EP in EP'. assert (coh' = coh /\ inc' = inc) as [-> ->] by (split; congruence). clear EP'.
  assert (ECC : calc_refl_co_cross_fields fss (o_refl_i o) (handed documented o) det = Ok (co, cr, perp, coh, inc)).
  { rewrite EI, EH, EFs. exact EC. }
  rewrite ECC. cbn [bind].
  eexists. split; [reflexivity|]. split; [reflexivity|].
  intros trs fss' o' co' cr' perp' coh'' inc'' EQ.
  assert (Etrs : trs = map T (seq 0 ntraj)) by congruence. assert (fss' = fss) as -> by congruence.
  assert (o' = o) as -> by congruence. assert (co' = co) as -> by congruence. assert (cr' = cr) as -> by congruence.
  assert (perp' = perp) as -> by congruence. assert (coh'' = coh) as -> by congruence. assert (inc'' = inc) as -> by congruence.
  clear EQ. cbv zeta. fold ev. fold r.
  assert (Hs01 : forall i, 0 <= strength (out_field F ev i) <= 1).
  { intros i. split; [apply strength_nonneg|]. unfold out_field, F. destruct (Huz i (ev i)) as [->| ->]; [lra|].
    rewrite L_polarization.strength_zero. lra. }
  assert (Hr0 : forall i, (i < ntraj)%nat -> 0 <= r i <= 1 / INR ntraj) by (intros i Hi; apply (Hper i Hi)).
  split; [rewrite Etrs; now rewrite map_length, seq_length|]. split; [exact Lf|].
  split. { intros i Hi. destruct (Hf i Hi) as (L & N0 & S1 & _). split; [exact L|]. split; [apply (Hper i Hi)|]. now rewrite N0. }
  split; [exact P1|]. split; [exact P2|]. split; [exact P3|]. split; [exact P4|]. split; [exact Hcoh|].
  assert (Hin : 0 <= inc <= over_reflected ntraj ev r).
  { rewrite Hinc. split.
    - apply over_reflected_all. intros i Hi. apply Rmult_le_pos; [apply Hr0, Hi|apply Hs01].
    - apply over_reflected_le. intros i Hi. destruct (Hr0 i Hi) as [Q _]. destruct (Hs01 i) as [_ Q2].
      rewrite <- (Rmult_1_r (r i)) at 2. apply Rmult_le_compat_l; assumption. }
  split; [exact Hin|].
  assert (Hall : 0 <= over_reflected ntraj ev r <= total (map r (seq 0 ntraj))) by (apply over_reflected_all; intros i Hi; apply Hr0, Hi).
  split.
  { apply Rle_trans with (total (map r (seq 0 ntraj))); [apply Hall|].
    apply (total_le_one ntraj (fun _ => 0) r Ht). intros i Hi. apply Hr0, Hi. }
  split. { intros ->. apply Rle_trans with (total (map r (seq 0 ntraj))); [apply Hall|].
    rewrite Hsum. right. f_equal. symmetry. exact EH. }
  split. { intros ->. assert (EH' : o_refl_pass o = map r (seq 0 ntraj)) by exact EH. rewrite EH'.
    unfold over_reflected. f_equal. apply map_ext_in. intros i Hi. apply in_seq in Hi.
    destruct (Nat.eqb_spec (ev i) 0) as [Z|Z]; [|reflexivity]. symmetry.
    destruct (Hper i ltac:(lia)) as (_ & _ & K). exact (K eq_refl Z). }
  split.
  - intros Hamp. rewrite Hinc. unfold over_reflected. f_equal. apply map_ext_in. intros i Hi. apply in_seq in Hi.
    destruct (Nat.eqb (ev i) 0); [reflexivity|].
    destruct (Hf i ltac:(lia)) as (_ & _ & _ & _ & U & _). unfold out_field, F.
    rewrite U; [ring|intros n _; apply Hamp|]. apply (Hper i ltac:(lia)).
  - intros Z1 Z2 i Hi Hev. destruct (Hf i Hi) as (_ & _ & _ & _ & _ & Tr).
    specialize (Tr Z1 Z2 (nth i (o_refl_i o) 0 - 1)%nat).
    replace (S (nth i (o_refl_i o) 0 - 1))%nat with (nth i (o_refl_i o) 0%nat) in Tr by (revert Hev; generalize (nth i (o_refl_i o) 0%nat); intros; lia).
    assert (N : nth i trs (mk_traj [] [] []) = T i).
    { rewrite Etrs. rewrite (nth_indep (map T (seq 0 ntraj)) (mk_traj [] [] []) (T 0%nat)) by (rewrite map_length, seq_length; exact Hi).
      rewrite map_nth, seq_nth by exact Hi. reflexivity. }
    rewrite N. exact Tr.
Qed.
