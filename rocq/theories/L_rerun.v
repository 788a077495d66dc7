(** When calc_refl_trans returns numbers; termination and depth of the re-runs
    (C33-C36). *)
From Coq Require Import Lra Lia Psatz.
From Verif Require Export L_conserve L_geometry.
Open Scope R_scope.

(* ------------------------------------------------------------------ *)
(** * Errors *)

Lemma pass_frac_total nb ni na ths :
  (Forall (fun t => t <= PI / 2) ths /\ fresnel_pass_frac nb ni na ths = Ok (map (pf1 nb ni na) ths))
  \/ fresnel_pass_frac nb ni na ths = Err ValueError.
Proof.
  destruct (Exists_dec (fun t => PI / 2 < t) ths (fun t => Rlt_dec (PI / 2) t)) as [He|He].
  - right. now apply pass_frac_err.
  - left. apply Forall_Exists_neg in He.
    assert (Hf : Forall (fun t => t <= PI / 2) ths) by (eapply Forall_impl; [|exact He]; cbn; intros; lra).
    split; [exact Hf|now apply pass_frac_ok].
Qed.

Lemma enter_err nm nf nt b th trs ft kz e :
  fresnel_correct_enter nm nf nt b th trs ft kz = Err e -> e = ValueError.
Proof.
  unfold fresnel_correct_enter. destruct ft; [discriminate|].
  destruct (get_all _) as [d|]; [|discriminate].
  destruct (pass_frac_total nm nf nt (get_angles (map (fun _ => 1%nat) trs) b trs th (Some d))) as [[_ ->]| ->];
    cbn; congruence.
Qed.

Lemma first_pass_err P ft trs e : first_pass P ft trs = Err e -> e = ValueError.
Proof.
  unfold first_pass.
  assert (G : forall K : list R -> result (option pass), (forall l, K l = Err e -> e = ValueError) ->
    forall kz trs',
    bind (fresnel_correct_enter (p_nmedium P) (p_nfront P) (choose_n_tir P) (p_boundary P) (p_thickness P) trs' ft kz)
      (fun o => match o with None => Ok None | Some l => K l end) = Err e -> e = ValueError).
  { intros K HK kz trs'. destruct (fresnel_correct_enter _ _ _ _ _ trs' ft kz) as [[l|]|e'] eqn:E; cbn.
    - apply HK.
    - discriminate.
    - intros H; inversion H; subst. eapply enter_err; eauto. }
  destruct (p_kz0rot P) as [kr|], (p_kz0refl P) as [kf|]; try (intros H; congruence);
    cbv zeta; apply G; intros inc; unfold calc_outcome_weights, fresnel_correct_exit;
    match goal with |- context [fresnel_pass_frac ?a ?b ?c ?d] =>
      destruct (pass_frac_total a b c d) as [[_ ->]| ->]; [|cbn; congruence] end; cbn [bind];
    match goal with |- context [fresnel_pass_frac ?a ?b ?c ?d] =>
      destruct (pass_frac_total a b c d) as [[_ ->]| ->]; [|cbn; congruence] end; cbn [bind];
    unfold detect_corrected_traj; discriminate.
Qed.

Lemma scatter_err dirs angs e : scatter dirs angs = Err e -> e = IndexError.
Proof.
  assert (G : forall rest prev angs e, scatter_loop prev rest angs = Err e -> e = IndexError).
  { induction rest as [|r rest IH]; intros prev [|[t p] as'] e'; cbn; try congruence.
    destruct (scatter_loop _ rest as') as [l|x] eqn:E; cbn; [discriminate|].
    intros H; inversion H; subst. eapply IH; eauto. }
  destruct dirs as [|k rest]; cbn; [discriminate|].
  destruct (scatter_loop k rest angs) as [l|x] eqn:E; cbn; [discriminate|].
  intros H; inversion H; subst. eapply G; eauto.
Qed.

Lemma rerun_traj_err radius mu angs steps i t idx w e :
  rerun_traj radius mu angs steps i t idx w = Err e -> e = IndexError.
Proof.
  unfold rerun_traj. destruct (Nat.ltb _ _); [congruence|].
  destruct (inf_to_large _ _ _) as [p0 p1]. cbv zeta.
  match goal with |- bind ?x _ = _ -> _ => destruct x as [d|e'] eqn:E end; cbn; [discriminate|].
  intros H; inversion H; subst. eapply scatter_err; eauto.
Qed.
Lemma rerun_all_err radius mu angs steps l : forall i e,
  rerun_all radius mu angs steps i l = Err e -> e = IndexError.
Proof.
  induction l as [|[[t idx] w] l IH]; intros i e; cbn; [discriminate|].
  destruct (rerun_traj _ _ _ _ _ _ _ _) as [t'|e'] eqn:E; cbn.
  - destruct (rerun_all _ _ _ _ _ l) as [ts|e'] eqn:E2; cbn; [discriminate|].
    intros H; inversion H; subst. eapply IH; eauto.
  - intros H; inversion H; subst. eapply rerun_traj_err; eauto.
Qed.

(* ------------------------------------------------------------------ *)
(** * Termination (C36) *)

(** Calls still possible below a call at depth [d] with limit [m]. *)
Definition gens_left (m d : nat) : nat := if Nat.ltb d m then S (19 - d) else 0.

Lemma crt_fuel fuel : forall angs steps P ft d trs,
  (gens_left (p_maxdepth P) d < fuel)%nat ->
  calc_refl_trans fuel angs steps P ft d trs <> Err OutOfFuel
  /\ (forall o, calc_refl_trans fuel angs steps P ft d trs = Ok (Some o) ->
        (o_generations o <= gens_left (p_maxdepth P) d)%nat
        /\ (p_run P = false -> o_generations o = 0%nat))
  /\ (forall fuel', (gens_left (p_maxdepth P) d < fuel')%nat ->
        calc_refl_trans fuel' angs steps P ft d trs = calc_refl_trans fuel angs steps P ft d trs).
Proof.
  induction fuel as [|fuel IH]; intros angs steps P ft d trs Hf; [lia|].
  cbn [calc_refl_trans].
  destruct (first_pass P ft trs) as [[q|]|e] eqn:Eq; cbn [bind].
  3: { split; [|split].
       - apply first_pass_err in Eq. subst. discriminate.
       - discriminate.
       - intros [|fuel'] H; [lia|]. cbn [calc_refl_trans]. rewrite Eq. reflexivity. }
  2: { split; [discriminate|]. split; [discriminate|].
       intros [|fuel'] H; [lia|]. cbn [calc_refl_trans]. rewrite Eq. reflexivity. }
  destruct (p_run P && Nat.ltb d (p_maxdepth P) && Rltb (p_maxstuck P) (q_total_stuck q)) eqn:Erun.
  - apply andb_true_iff in Erun as [Erun Estuck]. apply andb_true_iff in Erun as [Er Elt].
    assert (Hgl : gens_left (p_maxdepth P) d = S (19 - d)) by (unfold gens_left; now rewrite Elt).
    assert (Hnest : (gens_left 20 (S d) <= 19 - d)%nat).
    { unfold gens_left. destruct (Nat.ltb_spec (S d) 20); lia. }
    destruct (rerun_all _ _ _ _ _ _) as [trs'|e] eqn:Ea; cbn [bind].
    2: { split; [|split].
         - apply rerun_all_err in Ea. subst. discriminate.
         - discriminate.
         - intros [|fuel'] H; [lia|]. cbn [calc_refl_trans]. rewrite Eq. cbn [bind].
           rewrite Er, Elt, Estuck. cbn [andb]. rewrite Ea. reflexivity. }
    destruct (IH angs steps (nested_params P) true (S d) trs') as (I1 & I2 & I3).
    { cbn [p_maxdepth nested_params]. lia. }
    split; [|split].
    + destruct (calc_refl_trans fuel _ _ _ _ _ _) as [[o|]|e] eqn:Ec; cbn [bind]; try discriminate.
      congruence.
    + intros o. destruct (calc_refl_trans fuel _ _ _ _ _ _) as [[o'|]|e] eqn:Ec; cbn [bind]; try discriminate.
      intros H; inversion H; subst o. cbn [make_outcome o_generations].
      destruct (I2 o' eq_refl) as [Hle _]. cbn [p_maxdepth nested_params] in Hle. split; [lia|congruence].
    + intros [|fuel'] H; [lia|]. cbn [calc_refl_trans]. rewrite Eq. cbn [bind].
      rewrite Er, Elt, Estuck. cbn [andb]. rewrite Ea. cbn [bind].
      rewrite (I3 fuel'); [reflexivity|]. cbn [p_maxdepth nested_params]. lia.
  - split; [|split].
    + destruct (distribute_ambig_traj_weights _ _ _ _ _ _ _ _ _ _ _ _) as [[[[a b] c] e]|]; discriminate.
    + intros o. destruct (distribute_ambig_traj_weights _ _ _ _ _ _ _ _ _ _ _ _) as [[[[a b] c] e]|]; [|discriminate].
      intros H; inversion H. cbn. split; [lia|reflexivity].
    + intros [|fuel'] H; [lia|]. cbn [calc_refl_trans]. rewrite Eq. cbn [bind]. rewrite Erun. reflexivity.
Qed.

Lemma gens_left_0 m : (gens_left m 0 <= 20)%nat.
Proof. unfold gens_left. destruct (Nat.ltb 0 m); lia. Qed.

Lemma crt_terminates fuel angs steps P ft trs :
  (21 <= fuel)%nat ->
  calc_refl_trans fuel angs steps P ft 0 trs <> Err OutOfFuel
  /\ (forall o, calc_refl_trans fuel angs steps P ft 0 trs = Ok (Some o) -> (o_generations o <= 20)%nat)
  /\ calc_refl_trans fuel angs steps P ft 0 trs = calc_refl_trans 21 angs steps P ft 0 trs.
Proof.
  intros Hf. pose proof (gens_left_0 (p_maxdepth P)) as Hg.
  destruct (crt_fuel fuel angs steps P ft 0 trs ltac:(lia)) as (A & B & C).
  split; [exact A|]. split.
  - intros o Ho. destruct (B o Ho) as [Hle _]. lia.
  - symmetry. apply C. lia.
Qed.

(* ------------------------------------------------------------------ *)
(** * First pass succeeds *)

Lemma first_pass_forward P ft n T :
  good_params P n -> p_kz0rot P = None -> p_kz0refl P = None -> p_gonio P = None ->
  (ft = true \/
   match p_boundary P with
   | film => forall i, (i < n)%nat -> refraction (film_exit_angle (T i) 1) (choose_n_tir P) (p_nmedium P) <> None
   | sphere => forall i, (i < n)%nat -> fst (sphere_entry_angle (p_thickness P) (T i) 1) <= PI / 2
   end) ->
  (forall i, (i < n)%nat -> sl_ar P T i <= PI / 2 /\ sl_at P T i <= PI / 2) ->
  exists q, first_pass P ft (map T (seq 0 n)) = Ok (Some q).
Proof.
  intros Hg Hk1 Hk2 Hgo Hent Hex. unfold first_pass. rewrite Hk1, Hk2, Hgo. cbv zeta.
  assert (He : exists inc, fresnel_correct_enter (p_nmedium P) (p_nfront P) (choose_n_tir P) (p_boundary P)
     (p_thickness P) (map T (seq 0 n)) ft None = Ok (Some inc)).
  { unfold fresnel_correct_enter. destruct ft; [eauto|]. destruct Hent as [Hx|Hent]; [discriminate|].
    destruct (p_boundary P).
    - cbn [get_angles]. rewrite !map_map, (map2_maps film_exit_angle T (fun _ => 1%nat)), map_map.
      set (f := fun x => option_map cos (refraction (film_exit_angle (T x) 1) (choose_n_tir P) (p_nmedium P))).
      unfold get_all.
      replace (existsb is_none (map f (seq 0 n))) with false.
      2: { symmetry. apply existsb_map_false. intros i Hi. apply in_seq in Hi. unfold f.
           specialize (Hent i ltac:(lia)). destruct (refraction _ _ _); [reflexivity|congruence]. }
      rewrite pass_frac_ok; [cbn; eauto|].
      apply Forall_map, Forall_forall. intros; apply film_angle_range.
    - rewrite !map_map. unfold get_all.
      replace (existsb is_none (map (fun _ => Some 1) (seq 0 n))) with false.
      2: { symmetry. apply existsb_map_false. reflexivity. }
      cbn [get_angles]. rewrite map2_maps.
      rewrite pass_frac_ok; [cbn; eauto|].
      apply Forall_map, Forall_forall. intros i Hi. apply in_seq in Hi. apply Hent; lia. }
  destruct He as [inc ->]. cbn [bind]. unfold calc_outcome_weights, fresnel_correct_exit.
  rewrite !map_map, !(get_angles_exit P n).
  rewrite pass_frac_ok.
  2: { apply Forall_map, Forall_forall. intros i Hi. apply in_seq in Hi.
       destruct (Hex i ltac:(lia)) as [H _]. unfold sl_ar, sl_tr, sl_ri, sl_ev, sl_nt in H. rewrite Hgo in H. exact H. }
  cbn [bind]. rewrite pass_frac_ok.
  2: { apply Forall_map, Forall_forall. intros i Hi. apply in_seq in Hi.
       destruct (Hex i ltac:(lia)) as [_ H]. unfold sl_at, sl_tr, sl_ti, sl_ev, sl_nt in H. rewrite Hgo in H. exact H. }
  cbn [bind]. unfold detect_corrected_traj. eauto.
Qed.

(* ------------------------------------------------------------------ *)
(** * The sphere never fails *)


Definition starts_in (radius : R) (t : traj) : Prop :=
  outside radius (nth 0 (t_pos t) vzero) = false.

Lemma outside_dot radius p : outside radius p = Rltb (radius ^ 2) (dot (vx p, vy p, vz p - radius) (vx p, vy p, vz p - radius)).
Proof. unfold outside, dot. cbn [vx vy vz]. f_equal. ring. Qed.

(** The first position outside: the step that leads there starts inside. *)
Lemma first_outside_step radius t k :
  starts_in radius t -> length (t_pos t) = S (length (t_dir t)) ->
  first_true (map (outside radius) (tl (t_pos t))) k ->
  let c p := (vx p, vy p, vz p - radius) in
  let p0 := c (nth k (t_pos t) vzero) in
  let p1 := c (nth (S k) (t_pos t) vzero) in
  (k < length (t_dir t))%nat /\ dot p0 p0 <= radius ^ 2 /\ radius ^ 2 < dot p1 p1.
Proof.
  intros Hs Hl [Hk Hf] c p0 p1.
  assert (Hlt : (k < length (t_dir t))%nat).
  { apply nth_true_lt in Hk. rewrite map_length, tl_length in Hk. lia. }
  assert (Hn : forall j, (j < length (t_dir t))%nat ->
     nth j (map (outside radius) (tl (t_pos t))) false = outside radius (nth (S j) (t_pos t) vzero)).
  { intros j Hj. rewrite (nth_map_in _ _ j vzero) by (rewrite tl_length; lia). now rewrite nth_tl. }
  split; [exact Hlt|]. split.
  - assert (Ho : outside radius (nth k (t_pos t) vzero) = false).
    { destruct k as [|k]; [exact Hs|]. rewrite <- Hn by lia. apply Hf. lia. }
    rewrite outside_dot in Ho. apply Rltb_false in Ho. exact Ho.
  - rewrite Hn, outside_dot in Hk by exact Hlt. apply Rltb_true in Hk. exact Hk.
Qed.

Lemma vselect_zero l : vselect l 0 = vzero.
Proof. reflexivity. Qed.

Lemma inf_to_large_zero r : 0 < r -> inf_to_large vzero vzero r = (vzero, vzero).
Proof.
  intros Hr. unfold inf_to_large, vzero; cbn [vx vy vz]. pose proof pow20_big.
  rewrite !cap_hi_lo_small, cap_hi_small; auto; rewrite Rabs_R0; nra.
Qed.
Lemma normalize1_zero : normalize1 vzero = None.
Proof.
  unfold normalize1, div_vec, magnitude, vzero; cbn [vx vy vz]. rewrite Rabs_R0.
  replace (0 ^ 2 + 0 ^ 2 + 0 ^ 2) with 0 by ring. rewrite sqrt_0.
  replace (Reqb 0 0) with true by (symmetry; now apply Reqb_true). reflexivity.
Qed.
Lemma vsub_zero : vsub vzero vzero = vzero.
Proof. unfold vsub, vzero; cbn. f_equal; [f_equal|]; ring. Qed.

Lemma sphere_exit_angle_zero th t : 0 < th -> sphere_exit_angle th t 0 = (PI / 2, vzero).
Proof.
  intros Ht. unfold sphere_exit_angle. cbv zeta. rewrite !vselect_zero, inf_to_large_zero by lra.
  unfold find_vec_sphere_intersect. rewrite vsub_zero, normalize1_zero.
  unfold sphere_angle_norm. rewrite normalize1_zero. cbn. now rewrite acos_0.
Qed.

Lemma centred_nth r l i : (i < length l)%nat ->
  nth i (centred r l) vzero = (vx (nth i l vzero), vy (nth i l vzero), vz (nth i l vzero) - r).
Proof. intros H. unfold centred. now rewrite (nth_map_in _ _ i vzero) by exact H. Qed.

Lemma sphere_exit_angle_first th t k :
  0 < th -> starts_in (th / 2) t -> length (t_pos t) = S (length (t_dir t)) ->
  first_true (map (outside (th / 2)) (tl (t_pos t))) k ->
  fst (sphere_exit_angle th t (S k)) <= PI / 2.
Proof.
  intros Ht Hs Hl Hf. destruct (first_outside_step _ _ _ Hs Hl Hf) as (Hk & H0 & H1).
  unfold sphere_exit_angle. cbv zeta. cbn [vselect].
  rewrite nth_removelast by (unfold centred; rewrite map_length; lia). rewrite nth_tl, !centred_nth by lia.
  destruct (inf_to_large_in_out _ _ (th / 2) ltac:(lra) H0 H1) as (p1' & -> & Hout).
  apply exit_angle_half; [lra|exact H0|exact Hout].
Qed.

(** All the event numbers used for a sphere point at the first step out. *)
Lemma sphere_indices nt nm th zl t ps ng ti :
  wf_len t -> find_valid_exits nt nm th zl sphere t = (ps, ng, ti) ->
  let pot := map (outside (th / 2)) (tl (t_pos t)) in
  exists r tt s, event_indices nt nm th zl sphere t = (r, tt, s, argmax_padded ti)
    /\ (r = 0%nat \/ exists k, r = S k /\ first_true pot k)
    /\ (tt = 0%nat \/ exists k, tt = S k /\ first_true pot k)
    /\ (argmax_padded ti = 0%nat \/ exists k, argmax_padded ti = S k /\ first_true pot k)
    /\ ((r + tt + argmax_padded ti)%nat = 0%nat
        \/ exists k, (r + tt + argmax_padded ti)%nat = S k /\ first_true pot k).
Proof.
  intros Hw He pot. destruct (trajectory_outcome _ _ _ _ _ _ _ _ _ Hw He) as (r & tt & s & H1 & Ho).
  exists r, tt, s. split; [exact H1|].
  cbn in He. unfold find_valid_exits_sphere in He. fold pot in He.
  set (kzc := exit_kz (argmax_padded pot) t th nt nm) in *. injection He as E1 E2 E3.
  assert (Hn : forall (f : bool -> bool) j, f false = false -> nth j (map f pot) false = f (nth j pot false)).
  { intros f j Hff. rewrite <- Hff at 1. apply map_nth. }
  assert (Hpot : forall (f : bool -> bool) (c : bool) l k, l = map (fun p => p && c) pot ->
            nth k l false = true -> (forall j, (j < k)%nat -> nth j l false = false) -> first_true pot k).
  { intros _ c l k -> Hk Hj. rewrite Hn in Hk by reflexivity. apply andb_true_iff in Hk as [Hk Hc].
    split; [exact Hk|]. intros j Hlt. specialize (Hj j Hlt). rewrite Hn in Hj by reflexivity.
    rewrite Hc, andb_true_r in Hj. exact Hj. }
  assert (Hlen : length ng = length ps) by (rewrite <- E1, <- E2, !map_length; reflexivity).
  assert (Hr : r = 0%nat \/ exists k, r = S k /\ first_true pot k /\ tt = 0%nat
                /\ nth k ng false = true).
  { destruct Ho as [(_ & _ & Hr & _) | [(k & [_ Hf] & Hk & _ & Hr & Ht & _) | (k & _ & _ & _ & Hr & _)]];
      [now left| |now left].
    right. exists k. split; [exact Hr|]. split; [|split; [exact Ht|exact Hk]].
    eapply (Hpot (fun b => b)); [symmetry; exact E2|exact Hk|].
    intros j Hj. specialize (Hf j Hj). rewrite nth_map2_bool in Hf by auto.
    apply orb_false_iff in Hf. tauto. }
  assert (Htt : tt = 0%nat \/ exists k, tt = S k /\ first_true pot k /\ r = 0%nat
                /\ nth k ps false = true).
  { destruct Ho as [(_ & _ & _ & Ht & _) | [(k & _ & _ & _ & _ & Ht & _) | (k & [_ Hf] & Hk & _ & Hr' & Ht & _)]];
      [now left|now left|].
    right. exists k. split; [exact Ht|]. split; [|split; [exact Hr'|exact Hk]].
    eapply (Hpot (fun b => b)); [symmetry; exact E1|exact Hk|].
    intros j Hj. specialize (Hf j Hj). rewrite nth_map2_bool in Hf by auto.
    apply orb_false_iff in Hf. tauto. }
  assert (Hti : argmax_padded ti = 0%nat \/ exists k, argmax_padded ti = S k /\ first_true pot k /\ kzc = None).
  { destruct (argmax_padded_spec ti) as [[H0 _]|(k & Hk & [Hk1 Hk2] & _)]; [now left|right].
    exists k. split; [exact Hk|]. split.
    - eapply (Hpot (fun b => b)); [symmetry; exact E3|exact Hk1|exact Hk2].
    - rewrite <- E3, Hn in Hk1 by reflexivity. apply andb_true_iff in Hk1 as [_ Hk1].
      destruct kzc; [discriminate|reflexivity]. }
  assert (Hexcl : kzc = None -> r = 0%nat /\ tt = 0%nat).
  { intros Hz. rewrite Hz in E1, E2. split.
    - destruct Hr as [Hr|(k & _ & _ & _ & Hk)]; [exact Hr|].
      rewrite <- E2, Hn, andb_false_r in Hk by reflexivity. discriminate.
    - destruct Htt as [Hr'|(k & _ & _ & _ & Hk)]; [exact Hr'|].
      rewrite <- E1, Hn, andb_false_r in Hk by reflexivity. discriminate. }
  split; [destruct Hr as [|(k & A & B & _)]; eauto|].
  split; [destruct Htt as [|(k & A & B & _)]; eauto|].
  split; [destruct Hti as [|(k & A & B & _)]; eauto|].
  destruct Hti as [Hti|(k & A & B & C)].
  - rewrite Hti. destruct Hr as [->|(k & -> & B & -> & _)].
    + destruct Htt as [->|(k & -> & B & _)]; [now left|right]. exists k. split; [lia|exact B].
    + right. exists k. split; [lia|exact B].
  - destruct (Hexcl C) as [-> ->]. right. exists k. split; [lia|exact B].
Qed.

(** A re-run trajectory starts inside or on the sphere and exists. *)
Lemma rerun_traj_ok radius mu angs steps i t idx w :
  0 < radius -> wf_len t -> starts_in radius t ->
  (idx = 0%nat \/ exists k, idx = S k /\ first_true (map (outside radius) (tl (t_pos t))) k) ->
  exists t', rerun_traj radius mu angs steps i t idx w = Ok t' /\ starts_in radius t'.
Proof.
  intros Hr Hw Hs Hidx. pose proof Hw as (Hl & _ & Hnz).
  unfold rerun_traj.
  assert (Hle : Nat.ltb (length (t_dir t)) idx = false).
  { apply Nat.ltb_ge. destruct Hidx as [->|(k & -> & Hf)]; [lia|].
    destruct (first_outside_step _ _ _ Hs Hl Hf) as (Hk & _). lia. }
  rewrite Hle.
  assert (Hstart : exists p0 p1,
     inf_to_large (vselect (removelast (t_pos t)) idx) (vselect (tl (t_pos t)) idx) radius = (p0, p1)
     /\ let sel_r := if Nat.eqb idx 0 then 0 else radius in
        let q := find_vec_sphere_intersect (vx p0, vy p0, vz p0 - sel_r) (vx p1, vy p1, vz p1 - sel_r) radius in
        outside radius (vx q, vy q, vz q + sel_r) = false).
  { destruct Hidx as [->|(k & -> & Hf)].
    - rewrite !vselect_zero. exists vzero, vzero. split; [now apply inf_to_large_zero|].
      cbv zeta. cbn [Nat.eqb]. unfold vzero. cbn [vx vy vz]. rewrite Rminus_0_r.
      unfold find_vec_sphere_intersect. fold vzero. rewrite vsub_zero, normalize1_zero.
      unfold vzero; cbn [vx vy vz]. rewrite outside_dot. apply Rltb_false. unfold dot; cbn [vx vy vz]. nra.
    - destruct (first_outside_step _ _ _ Hs Hl Hf) as (Hk & H0 & H1).
      cbn [vselect]. rewrite nth_removelast by lia. rewrite nth_tl.
      set (a := nth k (t_pos t) vzero) in *. set (b := nth (S k) (t_pos t) vzero) in *.
      destruct (inf_to_large a b radius) as [p0 p1] eqn:Ei.
      exists p0, p1. split; [reflexivity|]. cbv zeta. cbn [Nat.eqb].
      (* clamping keeps a inside and b outside of the shifted sphere *)
      assert (Ha : p0 = a /\ radius ^ 2 < dot (vx p1, vy p1, vz p1 - radius) (vx p1, vy p1, vz p1 - radius)).
      { pose proof pow20_big as Hb20. set (B := 10 ^ 20) in *.
        assert (HB2 : 2 * radius <= B * radius) by nra.
        destruct a as [[ax ay] az], b as [[bx by_] bz]. unfold dot in H0, H1. cbn [vx vy vz] in H0, H1.
        assert (Hxx : forall x, x * x <= radius ^ 2 -> - radius <= x <= radius)
          by (clear - Hr; intros x Hx; split; nra).
        pose proof (Rle_0_sqr ax) as S1. pose proof (Rle_0_sqr ay) as S2.
        pose proof (Rle_0_sqr (az - radius)) as S3. unfold Rsqr in S1, S2, S3.
        assert (Hax : Rabs ax <= B * radius) by (apply Rabs_le; pose proof (Hxx ax ltac:(lra)); lra).
        assert (Hay : Rabs ay <= B * radius) by (apply Rabs_le; pose proof (Hxx ay ltac:(lra)); lra).
        assert (Haz : Rabs az <= B * radius) by (apply Rabs_le; pose proof (Hxx (az - radius) ltac:(lra)); lra).
        unfold inf_to_large in Ei. cbn [vx vy vz] in Ei.
        rewrite (cap_hi_lo_small radius ax), (cap_hi_lo_small radius ay), (cap_hi_small radius az) in Ei by assumption.
        injection Ei as E1 E2. split; [congruence|]. rewrite <- E2. unfold dot. cbn [vx vy vz].
        assert (G : forall x, cap_lo radius (cap_hi radius x) = x \/
            cap_lo radius (cap_hi radius x) = 100 * radius \/ cap_lo radius (cap_hi radius x) = - (100 * radius)).
        { intros x. destruct (Rle_lt_dec (Rabs x) (B * radius)) as [Hx|Hx]; [left; now apply cap_hi_lo_small|right].
          pose proof (cap_hi_lo_big radius x Hr Hx) as Hc.
          destruct (Rle_lt_dec 0 (cap_lo radius (cap_hi radius x))) as [Hp|Hp].
          - rewrite Rabs_pos_eq in Hc by exact Hp. now left.
          - rewrite Rabs_left in Hc by exact Hp. right. lra. }
        set (cx := cap_lo radius (cap_hi radius bx)) in *. set (cy := cap_lo radius (cap_hi radius by_)) in *.
        set (cz := cap_lo radius (cap_hi radius bz)) in *.
        pose proof (Rle_0_sqr cx) as Q1. pose proof (Rle_0_sqr cy) as Q2. pose proof (Rle_0_sqr (cz - radius)) as Q3.
        unfold Rsqr in Q1, Q2, Q3.
        destruct (G bx) as [Ex|Ex]; fold cx in Ex; [|assert (radius ^ 2 < cx * cx) by (destruct Ex as [-> | ->]; nra); lra].
        destruct (G by_) as [Ey|Ey]; fold cy in Ey; [|assert (radius ^ 2 < cy * cy) by (destruct Ey as [-> | ->]; nra); lra].
        destruct (G bz) as [Ez|Ez]; fold cz in Ez; [|assert (radius ^ 2 < (cz - radius) * (cz - radius)) by (destruct Ez as [-> | ->]; nra); lra].
        rewrite Ex, Ey, Ez. exact H1. }
      destruct Ha as [-> Hb].
      set (P0 := (vx a, vy a, vz a - radius)) in *. set (P1 := (vx p1, vy p1, vz p1 - radius)) in *.
      destruct (normalize1_exists (vsub P1 P0)) as [kk Hkk]; [apply (in_out_differ P0 P1 radius); assumption|].
      destruct (intersect_general P0 P1 radius kk Hr H0 Hb Hkk) as (_ & Hon & _ & _ & E).
      rewrite outside_dot. apply Rltb_false. cbn [vx vy vz].
      set (q := find_vec_sphere_intersect P0 P1 radius) in *.
      replace (dot (vx q, vy q, vz q + radius - radius) (vx q, vy q, vz q + radius - radius)) with (dot q q)
        by (unfold dot; cbn [vx vy vz]; ring).
      rewrite E. destruct (Reqb _ 0); [unfold dot, vzero; cbn [vx vy vz]; nra|]. rewrite Hon. lra. }
  destruct Hstart as (p0 & p1 & -> & Hout). cbv zeta in Hout |- *.
  set (q := find_vec_sphere_intersect _ _ radius) in *.
  match goal with |- context [scatter (?k :: ?r) ?a] =>
    destruct (proj1 (scatter_succeeds k r a)) as [ks Hks] end.
  { rewrite repeat_length, map_length, seq_length. lia. }
  rewrite Hks. cbn [bind]. eexists. split; [reflexivity|].
  unfold starts_in. cbn [t_pos move vcumsum_from nth].
  replace (vadd vzero (vx q, vy q, vz q + (if Nat.eqb idx 0 then 0 else radius)))
    with (vx q, vy q, vz q + (if Nat.eqb idx 0 then 0 else radius)); [exact Hout|].
  unfold vadd, vzero. cbn [vx vy vz]. f_equal; [f_equal|]; ring.
Qed.

Lemma rerun_all_ok radius mu angs steps (tr : nat -> traj) idx w : forall m k,
  (forall i, (k <= i < k + m)%nat -> exists t', rerun_traj radius mu angs steps i (tr i) (idx i) (w i) = Ok t') ->
  exists l, rerun_all radius mu angs steps k (map (fun i => (tr i, idx i, w i)) (seq k m)) = Ok l.
Proof.
  induction m as [|m IH]; intros k H; cbn; [eauto|].
  destruct (H k ltac:(lia)) as [t' ->]. cbn [bind].
  destruct (IH (S k)) as [l ->]; [intros i Hi; apply H; lia|]. cbn. eauto.
Qed.

Lemma sphere_succeeds fuel : forall angs steps P ft d n T,
  (gens_left (p_maxdepth P) d < fuel)%nat ->
  good_params P n -> p_boundary P = sphere -> 0 < p_thickness P ->
  p_gonio P = None -> p_kz0rot P = None -> p_kz0refl P = None ->
  (forall i, (i < n)%nat -> wf_len (T i) /\ starts_in (p_thickness P / 2) (T i)
     /\ (ft = true \/ fst (sphere_entry_angle (p_thickness P) (T i) 1) <= PI / 2)) ->
  exists o, calc_refl_trans fuel angs steps P ft d (map T (seq 0 n)) = Ok (Some o).
Proof.
  induction fuel as [|fuel IH]; intros angs steps P ft d n T Hf Hg Hb Hth Hgo Hk1 Hk2 HT; [lia|].
  assert (Hex : forall i, (i < n)%nat -> sl_ar P T i <= PI / 2 /\ sl_at P T i <= PI / 2).
  { intros i Hi. destruct (HT i Hi) as (Hw & Hs & _).
    destruct (find_valid_exits (sl_nt P) (p_nmedium P) (p_thickness P) (p_zlow P) sphere (T i)) as [[ps ng] ti] eqn:E.
    destruct (sphere_indices _ _ _ _ _ _ _ _ Hw E) as (r & tt & s & He & Hr & Ht & _).
    unfold sl_ar, sl_at, sl_ri, sl_ti, sl_tr, sl_ev. rewrite Hgo, Hb, He. cbn [i_refl i_trans].
    unfold exit_angle. rewrite Hb.
    assert (G : forall ev, (ev = 0%nat \/ exists k, ev = S k /\ first_true (map (outside (p_thickness P / 2)) (tl (t_pos (T i)))) k) ->
        fst (sphere_exit_angle (p_thickness P) (T i) ev) <= PI / 2).
    { intros ev [->|(k & -> & Hk)]; [rewrite sphere_exit_angle_zero by exact Hth; cbn; lra|].
      destruct Hw as (Hl & _). now apply sphere_exit_angle_first. }
    split; apply G; assumption. }
  destruct (first_pass_forward P ft n T Hg Hk1 Hk2 Hgo) as [q Hq].
  { rewrite Hb. destruct ft; [now left|right]. intros i Hi. destruct (HT i Hi) as (_ & _ & [H|H]); [discriminate|exact H]. }
  { exact Hex. }
  cbn [calc_refl_trans]. rewrite Hq. cbn [bind].
  destruct (first_pass_slots P ft n T q Hg Hq) as (inc & di & _ & _ & -> & _).
  destruct (p_run P && Nat.ltb d (p_maxdepth P) && Rltb (p_maxstuck P) _) eqn:Erun.
  - apply andb_true_iff in Erun as [Erun _]. apply andb_true_iff in Erun as [_ Elt].
    unfold sl_pass. cbn [q_exit q_refl_det q_inc_refl_det q_trans_det q_stuck q_refl_i q_trans_i q_tir_i q_trs
       sl_exit x_refl_fresnel x_trans_fresnel].
    rewrite !map2_maps, !map_map, !combine_maps.
    assert (Hre : forall i, (0 <= i < 0 + n)%nat -> exists t',
       rerun_traj (p_thickness P / 2) (p_muabs P) (angs d) (steps d) i (sl_tr P T i)
         (sl_ri P T i + sl_ti P T i + i_tir (sl_ev P T i))%nat
         (sl_rf P T inc i + sl_tf P T inc i + sl_sw P T inc i) = Ok t'
       /\ starts_in (p_thickness P / 2) t').
    { intros i [_ Hi]. cbn in Hi. destruct (HT i Hi) as (Hw & Hs & _).
      destruct (find_valid_exits (sl_nt P) (p_nmedium P) (p_thickness P) (p_zlow P) sphere (T i)) as [[ps ng] ti] eqn:E.
      destruct (sphere_indices _ _ _ _ _ _ _ _ Hw E) as (r & tt & s & He & _ & _ & _ & Hsum).
      unfold sl_ri, sl_ti, sl_tr, sl_ev. rewrite Hgo, Hb, He. cbn [i_refl i_trans i_tir].
      apply rerun_traj_ok; [lra|exact Hw|exact Hs|exact Hsum]. }
    destruct (rerun_all_ok (p_thickness P / 2) (p_muabs P) (angs d) (steps d) (sl_tr P T)
       (fun i => (sl_ri P T i + sl_ti P T i + i_tir (sl_ev P T i))%nat)
       (fun i => sl_rf P T inc i + sl_tf P T inc i + sl_sw P T inc i) n 0) as [l Hl].
    { intros i Hi. destruct (Hre i Hi) as (t' & H & _). eauto. }
    rewrite Hl. cbn [bind].
    destruct (rerun_all_slots _ _ _ _ _ _ _ _ _ _ Hl) as [T' [-> HT']].
    destruct (IH angs steps (nested_params P) true (S d) n T') as [o Ho].
    + cbn [p_maxdepth nested_params]. assert (Hgl : gens_left (p_maxdepth P) d = S (19 - d)) by (unfold gens_left; now rewrite Elt).
      unfold gens_left. destruct (Nat.ltb_spec (S d) 20); lia.
    + eapply nested_good; eauto.
    + exact Hb.
    + exact Hth.
    + reflexivity.
    + reflexivity.
    + reflexivity.
    + intros i Hi. specialize (HT' i (conj (Nat.le_0_l i) Hi)).
      destruct (Hre i (conj (Nat.le_0_l i) Hi)) as (t' & H1 & H2).
      assert (t' = T' i) by congruence. subst t'.
      split; [|split; [exact H2|now left]].
      eapply rerun_traj_wf; [|exact HT']. rewrite sl_tr_pos. destruct (HT i Hi) as ((Hl' & _) & _). lia.
    + rewrite Ho. cbn [bind]. eauto.
  - unfold sl_pass. cbn [q_exit q_refl_det q_inc_refl_det q_trans_det q_stuck q_refl_i q_trans_i q_tir_i q_trs
       sl_exit x_refl_fresnel x_trans_fresnel x_refl_frac x_trans_frac q_refl_det_frac q_trans_det_frac].
    rewrite Hb, Hgo. unfold distribute_ambig_traj_weights. eauto.
Qed.
