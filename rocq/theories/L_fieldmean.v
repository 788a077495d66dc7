(** Launch phases of the trajectories (C153). *)
From Coq Require Import Lra Lia Psatz.
From Verif Require Import Num Spec Spec_polarization Spec_fields Spec_detector Spec_mean M_init M_montecarlo M_detector M_simulation
  M_polarization M_fields M_workflow M_fieldflow L_num L_outcomes L_simulation L_polarization L_fields L_mean L_fieldflow.
From Coquelicot Require Import Complex.
Open Scope R_scope.

Lemma turned_mod t : Cmod (turned t) = 1.
Proof. apply expi_mod. Qed.
Lemma expi_plus a b : expi (a + b) = Cmult (expi a) (expi b).
Proof. unfold expi, Cmult. cbn [fst snd]. rewrite cos_plus, sin_plus. f_equal; ring. Qed.

Lemma fmag_fmul u f : Cmod u = 1 -> fmag (fmul u f) = fmag f.
Proof. intros H. unfold fmag, fmul, fx, fy, fz. cbn [fst snd]. now rewrite !Cmod_mult, H, !Rmult_1_r. Qed.

(** The initial column is turned by a common phase. *)
Lemma init_shift polarized nev a b t l :
  init_fields false polarized nev a b = Ok (Some l) ->
  init_fields false polarized nev (a + t) (b + t) = Ok (Some (map (fmul (turned t)) l)).
Proof.
  unfold init_fields. destruct nev as [|n]; [discriminate|].
  set (f0 := (expi (a * 2 * PI), if polarized then RtoC 0 else expi (b * 2 * PI), RtoC 0) : field).
  set (f1 := (expi ((a + t) * 2 * PI), if polarized then RtoC 0 else expi ((b + t) * 2 * PI), RtoC 0) : field).
  assert (E : f1 = fmul (turned t) f0).
  { unfold f1, f0, fmul, turned, fx, fy, fz. cbn [fst snd].
    replace ((a + t) * 2 * PI) with (a * 2 * PI + 2 * PI * t) by ring.
    replace ((b + t) * 2 * PI) with (b * 2 * PI + 2 * PI * t) by ring. rewrite !expi_plus.
    f_equal; [f_equal|now rewrite Cmult_0_l]. destruct polarized; [now rewrite Cmult_0_l|reflexivity]. }
  rewrite E. unfold fnormalize. rewrite fmag_fmul by apply turned_mod.
  destruct (Reqb (fmag f0) 0); [discriminate|]. intros H. assert (l = let g : field := (fx (fdiv f0 (fmag f0)), fy (fdiv f0 (fmag f0)), RtoC 0) in g :: g :: repeat fzero n) as -> by congruence.
  cbv zeta. cbn [map]. set (h := fdiv (fmul (turned t) f0) (fmag f0)).
  assert (G : (fx h, fy h, RtoC 0) = fmul (turned t) (fx (fdiv f0 (fmag f0)), fy (fdiv f0 (fmag f0)), RtoC 0)).
  { unfold h, fdiv, fmul, fx, fy, fz, Cdiv. cbn [fst snd]. f_equal; [f_equal; ring|now rewrite Cmult_0_l]. }
  rewrite G. do 4 f_equal. clear. induction n as [|n IH]; [reflexivity|]. cbn [repeat map]. rewrite <- IH. f_equal.
  unfold fmul, fzero, fx, fy, fz. cbn [fst snd]. now rewrite Cmult_0_l.
Qed.

Lemma jones_step_turn u s e : jones_step s (Cmult (fst e) u, Cmult (snd e) u) = (Cmult (fst (jones_step s e)) u, Cmult (snd (jones_step s e)) u).
Proof. destruct s as [[[S1 S2] S3] S4]. unfold jones_step. cbn [fst snd]. f_equal; ring. Qed.

Lemma jones_loop_turn u : forall tail amps e,
  jones_loop amps (Cmult (fst e) u, Cmult (snd e) u) (map (fmul u) tail) = bind (jones_loop amps e tail) (fun l => Ok (map (fmul u) l)).
Proof.
  induction tail as [|f tail IH]; intros amps e; [reflexivity|]. cbn [map jones_loop].
  destruct amps as [|s amps]; [reflexivity|]. rewrite jones_step_turn, IH.
  destruct (jones_loop amps (jones_step s e) tail) as [l|]; reflexivity.
Qed.

Lemma rot_turn a u f : rot_field a (fmul u f) = fmul u (rot_field a f).
Proof. destruct a as [[[ct st] cp] sp]. unfold rot_field, fmul, fx, fy, fz. cbn [fst snd]. f_equal; [f_equal|]; ring. Qed.

Lemma rotate_loop_turn u : forall angs tail,
  rotate_loop angs (map (fmul u) tail) = bind (rotate_loop angs tail) (fun l => Ok (map (fmul u) l)).
Proof.
  induction angs as [|a angs IH]; intros tail.
  - destruct tail; reflexivity.
  - destruct tail as [|f tail]; [reflexivity|]. cbn [map rotate_loop]. rewrite rot_turn.
    rewrite (map_map (fmul u) (rot_field a)). rewrite (map_ext (fun x => rot_field a (fmul u x)) (fun x => fmul u (rot_field a x))) by (intros; apply rot_turn).
    rewrite <- (map_map (rot_field a) (fmul u)), IH. destruct (rotate_loop angs (map (rot_field a) tail)) as [l|]; reflexivity.
Qed.

Lemma map2_fmul_turn u : forall ph l, map2 fmul ph (map (fmul u) l) = map (fmul u) (map2 fmul ph l).
Proof.
  induction ph as [|p ph IH]; intros [|f l]; try reflexivity. cbn [map2 map]. rewrite IH. f_equal.
  unfold fmul, fx, fy, fz. cbn [fst snd]. f_equal; [f_equal|]; ring.
Qed.

Lemma column_turn u k amps angs steps col : Cmod u = 1 ->
  fields_column k amps angs steps (map (fmul u) col) = bind (fields_column k amps angs steps col) (fun l => Ok (map (fmul u) l)).
Proof.
  intros Hu. destruct col as [|f0 [|f1 tail]]; [reflexivity| |].
  - cbn [map fields_column bind]. now rewrite fnormalize0_fmul.
  - cbn [map fields_column]. change (fx (fmul u f0), fy (fmul u f0)) with (Cmult (fst (fx f0, fy f0)) u, Cmult (snd (fx f0, fy f0)) u).
    rewrite jones_loop_turn. destruct (jones_loop amps (fx f0, fy f0) tail) as [t1|]; [|reflexivity]. cbn [bind].
    rewrite rotate_loop_turn. destruct (rotate_loop angs t1) as [t2|]; [|reflexivity]. cbn [bind].
    change (fmul u f1 :: map (fmul u) t2) with (map (fmul u) (f1 :: t2)). rewrite map2_fmul_turn.
    generalize (map2 fmul (phase_factors k steps) (f1 :: t2)). intros L.
    assert (EL : map fnormalize0 (map (fmul u) L) = map (fmul u) (map fnormalize0 L)).
    { rewrite !map_map. apply map_ext. intros f. now apply fnormalize0_fmul. }
    cbn [map]. rewrite EL, fnormalize0_fmul by exact Hu. reflexivity.
Qed.

Lemma mapM_somes {A B} (f : A -> result B) (c : A -> B) l : (forall a, In a l -> f a = Ok (c a)) -> mapM f l = Ok (map c l).
Proof.
  induction l as [|a l IH]; intros H; [reflexivity|]. cbn [mapM map]. rewrite H by now left. cbn [bind].
  rewrite IH; [reflexivity|]. intros b Hb. apply H. now right.
Qed.

Lemma initial_shift polarized nev ntraj a b t : (0 < nev)%nat ->
  exists c : nat -> list field,
    initial_fields false polarized nev ntraj a b = Ok (Some (map c (seq 0 ntraj)))
    /\ initial_fields false polarized nev ntraj (fun i => a i + t i) (fun i => b i + t i)
       = Ok (Some (map (fun i => map (fmul (turned (t i))) (c i)) (seq 0 ntraj))).
Proof.
  intros Hn. set (c := fun i => match init_fields false polarized nev (a i) (b i) with Ok (Some l) => l | _ => [] end).
  assert (Hc : forall i, init_fields false polarized nev (a i) (b i) = Ok (Some (c i))).
  { intros i. unfold c. destruct nev as [|n]; [lia|]. destruct (init_fields_spec false polarized n (a i) (b i)) as (f & -> & _). reflexivity. }
  exists c. unfold initial_fields. split.
  - rewrite (mapM_somes _ (fun i => Some (c i))) by (intros; apply Hc). cbn [bind]. rewrite <- (map_map c Some), all_some_map. reflexivity.
  - rewrite (mapM_somes _ (fun i => Some (map (fmul (turned (t i))) (c i)))) by (intros; apply init_shift, Hc). cbn [bind].
    rewrite <- (map_map (fun i => map (fmul (turned (t i))) (c i)) Some), all_some_map. reflexivity.
Qed.

Lemma calc_fields_turn amp nk wl n (FT FT' : nat -> ftraj) (t : nat -> R) fss angs :
  (forall i, (i < n)%nat -> ft_angles (FT' i) = ft_angles (FT i) /\ ft_steps (FT' i) = ft_steps (FT i)
      /\ ft_fields (FT' i) = map (fmul (turned (t i))) (ft_fields (FT i))) ->
  calc_fields amp nk wl false (map FT (seq 0 n)) = Ok (fss, angs) ->
  exists angs', calc_fields amp nk wl false (map FT' (seq 0 n)) = Ok (map (fun i => map (fmul (turned (t i))) (nth i fss [])) (seq 0 n), angs').
Proof.
  intros HF H.
  assert (Hne : forall i, (i < n)%nat -> nth_error (map FT (seq 0 n)) i = Some (FT i)).
  { intros i Hi. apply map_nth_error. rewrite (nth_error_nth' _ 0%nat) by (now rewrite seq_length). now rewrite seq_nth. }
  unfold calc_fields. cbn [andb].
  assert (M : forall (g : ftraj -> result (list field)) (c : nat -> list field) l, (forall i, In i l -> g (FT' i) = Ok (c i)) -> mapM g (map FT' l) = Ok (map c l)).
  { intros g c. induction l as [|i l IH]; intros Hg; [reflexivity|]. cbn [map mapM]. rewrite Hg by now left. cbn [bind].
    rewrite IH; [reflexivity|]. intros j Hj. apply Hg. now right. }
  rewrite (M _ (fun i => map (fmul (turned (t i))) (nth i fss []))); [eexists; reflexivity|].
  intros i Hi. apply in_seq in Hi. destruct (HF i ltac:(lia)) as (E1 & E2 & E3). rewrite E1, E2, E3.
  rewrite column_turn by apply turned_mod.
  rewrite (calc_fields_column amp nk wl _ _ _ i (FT i) H (Hne i ltac:(lia))). reflexivity.
Qed.

(** A run whose launch phases are shifted by [t i]. *)
Lemma run_turn nev ntraj spot tmin tmax pmin pmax mu amp nk wavelen polarized documented det P D a b trs fss o c t :
  (0 < nev)%nat ->
  fields_run nev ntraj spot tmin tmax pmin pmax mu amp nk wavelen false polarized documented det P D a b = Ok (Some (trs, fss, o, c)) ->
  let fss' := map (fun i => map (fmul (turned (t i))) (nth i fss [])) (seq 0 ntraj) in
  fields_run nev ntraj spot tmin tmax pmin pmax mu amp nk wavelen false polarized documented det P D (fun i => a i + t i) (fun i => b i + t i)
  = bind (calc_refl_co_cross_fields fss' (o_refl_i o) (handed documented o) det) (fun c' => Ok (Some (trs, fss', o, c'))).
Proof.
  intros Hn H fss'. unfold fields_run in *.
  destruct (initialize_film _ _ _ _ _ _ _ _ _ _ _ _ _ _ _ _) as [starts|]; [|discriminate]. cbn [bind] in *.
  destruct (initial_shift polarized nev ntraj a b t Hn) as (cc & E1 & E2). rewrite E2. rewrite E1 in H. cbn [bind] in *.
  destruct (sample_step ntraj mu None 0 (uniform_rows nev ntraj (d_u D)) (fun _ => 0)) as [steps|]; [|discriminate]. cbn [bind] in *.
  destruct (run_trajs nev (p_muabs P) (d_ang D) steps 0 starts) as [[trs0|]|]; [|discriminate|discriminate]. cbn [bind] in *.
  destruct (calc_fields amp nk wavelen false (map (field_traj nev D steps trs0 (map cc (seq 0 ntraj))) (seq 0 ntraj))) as [[fs angs]|] eqn:EF; [|discriminate].
  cbn [bind fst] in H.
  destruct (calc_refl_trans 22 (d_rang D) (d_rstep D) P false 0 trs0) as [[o0|]|]; [|discriminate|discriminate]. cbn [bind] in H.
  destruct (calc_refl_co_cross_fields fs (o_refl_i o0) (handed documented o0) det) as [c0|]; [|discriminate]. cbn [bind] in H.
  assert (trs0 = trs /\ fs = fss /\ o0 = o) as (-> & -> & ->) by (repeat split; congruence).
  destruct (calc_fields_turn amp nk wavelen ntraj (field_traj nev D steps trs (map cc (seq 0 ntraj)))
     (field_traj nev D steps trs (map (fun i => map (fmul (turned (t i))) (cc i)) (seq 0 ntraj))) t fss angs) as (angs' & EF').
  - intros i Hi. split; [reflexivity|]. split; [reflexivity|]. unfold field_traj. cbn [ft_fields].
    assert (N : forall (g : nat -> list field), nth i (map g (seq 0 ntraj)) [] = g i).
    { intros g. rewrite (nth_indep _ [] (g 0%nat)) by (rewrite map_length, seq_length; exact Hi). rewrite (map_nth g), seq_nth by exact Hi. reflexivity. }
    now rewrite !N.
  - exact EF.
  - rewrite EF'. cbn [bind fst]. reflexivity.
Qed.

Lemma fmul_fturn u f : fmul u f = fturn u f.
Proof. unfold fmul, fturn. f_equal; [f_equal|]; apply Cmult_comm. Qed.

Lemma run_mean nev ntraj spot tmin tmax pmin pmax mu amp nk wavelen polarized documented det P D a b trs fss o c0 :
  (0 < nev)%nat -> (0 < ntraj)%nat -> 0 < spot -> 0 < mu -> 0 <= p_muabs P ->
  in01 (d_l0 D) -> in01 (d_l1 D) -> (forall n i, 0 <= d_u D n i < 1) ->
  valid_params P ntraj -> 0 < p_nmedium P <= p_nsample P ->
  p_kz0rot P = None -> p_kz0refl P = None -> p_boundary P = M_montecarlo.film -> p_run P = false ->
  fields_run nev ntraj spot tmin tmax pmin pmax mu amp nk wavelen false polarized documented det P D a b = Ok (Some (trs, fss, o, c0)) ->
  exists (co cr perp coh : (nat -> R) -> R) inc,
    (forall t, exists fss', fields_run nev ntraj spot tmin tmax pmin pmax mu amp nk wavelen false polarized documented det P D
         (fun i => a i + t i) (fun i => b i + t i) = Ok (Some (trs, fss', o, (co t, cr t, perp t, coh t, inc))))
    /\ is_mean ntraj coh inc
    /\ is_mean ntraj (fun t => co t + cr t + perp t) (INR ntraj * inc).
Proof.
  intros Hn Ht Hsp Hm Ha H0 H1 Hu Hv Hns Hk1 Hk2 Hb Hr H.
  destruct (fields_run_parts nev ntraj spot tmin tmax pmin pmax mu amp nk wavelen false polarized documented det P D a b
     Hn Ht Hsp Hm Ha H0 H1 Hu Hns) as (T & E & fs & EF & _ & Lf & HT & Huz & Hf).
  rewrite H in EF.
  destruct (calc_refl_trans 22 (d_rang D) (d_rstep D) P false 0 (map T (seq 0 ntraj))) as [[o0|]|] eqn:EO; [|discriminate|discriminate].
  cbn [bind] in EF.
  destruct (calc_refl_co_cross_fields fs (o_refl_i o0) (handed documented o0) det) as [c1|]; [|discriminate]. cbn [bind] in EF.
  assert (fs = fss /\ o0 = o) as (-> & ->) by (split; congruence). clear EF.
  destruct (handed_ok 21 (d_rang D) (d_rstep D) P ntraj nev T o documented Ht Hv Hb Hr Ha
     (fun i Hi => proj2 (HT i Hi)) EO) as (EI & EH & Hper & _).
  set (ev := fun i => nth i (o_refl_i o) 0%nat) in *. set (r := fun i => nth i (handed documented o) 0) in *.
  set (F := fun i => nth i fss []).
  assert (FR : field_run ntraj nev F ev r).
  { split; [exact Ht|]. intros i Hi. split; [apply (Hf i Hi)|]. destruct (Hper i Hi) as (B1 & B2 & _). split; [exact B1|apply B2]. }
  destruct (phases_mean ntraj nev F ev r det FR) as (co & cr & perp & coh & inc & HV & Hinc & M1 & _).
  assert (Hrun : forall t, exists fss', fields_run nev ntraj spot tmin tmax pmin pmax mu amp nk wavelen false polarized documented det P D
         (fun i => a i + t i) (fun i => b i + t i) = Ok (Some (trs, fss', o, (co t, cr t, perp t, coh t, inc)))).
  { intros t. eexists. rewrite (run_turn _ _ _ _ _ _ _ _ _ _ _ _ _ _ _ _ _ _ _ _ _ _ t Hn H).
    set (fss' := map (fun i => map (fmul (turned (t i))) (nth i fss [])) (seq 0 ntraj)).
    assert (EV : calc_refl_co_cross_fields fss' (o_refl_i o) (handed documented o) det = Ok (co t, cr t, perp t, coh t, inc)).
    { rewrite EI, EH. rewrite <- (HV t). unfold co_cross, fss'. f_equal. apply map_ext. intros i. unfold F. apply map_ext. intros f. apply fmul_fturn. }
    rewrite EV. cbn [bind]. reflexivity. }
  exists co, cr, perp, coh, inc. split; [exact Hrun|]. split; [exact M1|].
  pose proof (is_mean_scal ntraj (INR ntraj) _ _ M1) as M2. revert M2. apply is_mean_ext. intros t. symmetry.
  assert (FRt : field_run ntraj nev (fun i => map (fturn (turned (t i))) (F i)) ev r).
  { split; [exact Ht|]. intros i Hi. rewrite map_length. apply (proj2 FR i Hi). }
  destruct (co_cross_sum ntraj nev _ ev r det FRt) as (tx & ty & tz & co' & cr' & perp' & coh' & inc' & _ & EC & _ & _ & _ & _ & _ & _ & P4).
  rewrite (HV t) in EC. assert (Q : co' = co t /\ cr' = cr t /\ perp' = perp t /\ coh' = coh t) by (repeat split; congruence).
  destruct Q as (-> & -> & -> & ->). exact P4.
Qed.
