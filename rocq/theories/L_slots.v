(** The arrays of the detector pipeline as functions of the trajectory number. *)
From Coq Require Import Lra Lia Psatz FunctionalExtensionality.
From Verif Require Export L_weights.
Open Scope R_scope.

Lemma list_as_map {A} (d : A) l : l = map (fun i => nth i l d) (seq 0 (length l)).
Proof.
  induction l as [|a l IH]; [reflexivity|]. cbn. f_equal.
  rewrite IH at 1. rewrite <- seq_shift, map_map. reflexivity.
Qed.

Lemma map2_maps {A B C D} (f : A -> B -> C) (g : D -> A) (h : D -> B) l :
  map2 f (map g l) (map h l) = map (fun d => f (g d) (h d)) l.
Proof. induction l as [|d l IH]; cbn; congruence. Qed.

Lemma existsb_map_false {A B} (f : A -> B) p l :
  existsb p (map f l) = false <-> forall a, In a l -> p (f a) = false.
Proof.
  induction l as [|a l IH]; cbn; [split; [intros _ ? []|reflexivity]|].
  rewrite orb_false_iff, IH. split.
  - intros [H1 H2] b [<-|Hb]; auto.
  - intros H; split; auto.
Qed.

Definition tdummy : traj := mk_traj [] [] [].

Section Slots.
Variables (P : params) (ft : bool) (n : nat) (T : nat -> traj).

Let L := seq 0 n.
Definition sl_ns := Rabs (p_nsample P).
Definition sl_nt := choose_n_tir P.
Definition sl_ev i := event_indices sl_nt (p_nmedium P) (p_thickness P) (p_zlow P) (p_boundary P) (T i).
Definition sl_tr i := match p_gonio P with
                      | None => T i | Some _ => shift_traj_tir (T i) (i_tir (sl_ev i)) end.
Definition sl_ri i := match p_gonio P with
  | None => i_refl (sl_ev i)
  | Some (th, len, dist) =>
      calc_index_detected (i_refl (sl_ev i)) (sl_tr i) th len dist sl_ns (p_nmedium P)
  end.
Definition sl_ti i := i_trans (sl_ev i).
Definition sl_si i := i_stuck (sl_ev i).

(** exit angle and entry angle of one trajectory *)
Definition exit_angle (t : traj) (ev : nat) : R :=
  match p_boundary P with
  | film => film_exit_angle t ev
  | sphere => fst (sphere_exit_angle (p_thickness P) t ev)
  end.
Definition sl_ar i := exit_angle (sl_tr i) (sl_ri i).
Definition sl_at i := exit_angle (sl_tr i) (sl_ti i).

Lemma get_angles_exit (idx : nat -> nat) (t : nat -> traj) :
  get_angles (map idx L) (p_boundary P) (map t L) (p_thickness P) None
  = map (fun i => exit_angle (t i) (idx i)) L.
Proof.
  unfold get_angles, exit_angle. destruct (p_boundary P); rewrite map2_maps; reflexivity.
Qed.

Lemma exit_angle_nonneg t ev : 0 <= exit_angle t ev.
Proof.
  unfold exit_angle. destruct (p_boundary P).
  - apply film_angle_range.
  - unfold sphere_exit_angle. destruct (inf_to_large _ _ _). apply acos_nonneg.
Qed.

(** Incident quantities *)
Variable inc : nat -> R.
Definition sl_rw i := inc i * select_col (t_w (sl_tr i)) (sl_ri i).
Definition sl_tw i := inc i * select_col (t_w (sl_tr i)) (sl_ti i).
Definition sl_sw i := inc i * select_col (t_w (sl_tr i)) (sl_si i).
Definition sl_ab i := inc i - sl_rw i - sl_tw i - sl_sw i.
Definition sl_rp i := sl_rw i * pf1 sl_nt (p_nfront P) (p_nmedium P) (sl_ar i).
Definition sl_tp i := sl_tw i * pf1 sl_nt (p_nback P) (p_nmedium P) (sl_at i).
Definition sl_rf i := sl_rw i - sl_rp i.
Definition sl_tf i := sl_tw i - sl_tp i.
Definition sl_dr i := detect1 sl_ns (p_nmedium P) (p_detection P) (sl_ar i) (sl_rp i).
Definition sl_dt i := detect1 sl_ns (p_nmedium P) (p_detection P) (sl_at i) (sl_tp i).
Definition sl_known := if ft then INR n else total (map (fun i => sl_ab i + sl_rp i + sl_tp i) L).
Definition sl_exit : exit_split :=
  mk_exit (ndiv (total (map sl_rp L)) sl_known) (ndiv (total (map sl_tp L)) sl_known)
    (map sl_rp L) (map sl_tp L) (map sl_rf L) (map sl_tf L).
Definition sl_left i := sl_rf i + sl_tf i + sl_sw i.
Definition sl_pass (di : nat -> R) : pass :=
  mk_pass (map sl_tr L) (map sl_ri L) (map sl_ti L) (map (fun i => i_tir (sl_ev i)) L)
    (map sl_sw L) (map sl_ab L) sl_exit (map di L) (map sl_dt L) (map sl_dr L)
    (det_frac (map sl_dt L) (map sl_tp L)) (det_frac (map sl_dr L) (map sl_rp L))
    (total (map sl_left L) / INR n).
End Slots.


Definition inc_ok (ft : bool) (n : nat) (inc : nat -> R) : Prop :=
  forall i, (i < n)%nat -> 0 <= inc i <= 1 /\ (ft = true -> inc i = 1).

Lemma sphere_entry_nonneg th t ev : 0 <= fst (sphere_entry_angle th t ev).
Proof. apply acos_nonneg. Qed.

Lemma angles_entry P n (T : nat -> traj) (d : nat -> R) :
  exists a : nat -> R, (forall i, 0 <= a i) /\
    get_angles (map (fun _ => 1%nat) (map T (seq 0 n))) (p_boundary P) (map T (seq 0 n))
      (p_thickness P) (Some (map d (seq 0 n))) = map a (seq 0 n).
Proof.
  unfold get_angles. destruct (p_boundary P).
  - exists (fun i => film_angle (d i)). split; [intros; apply film_angle_range|].
    now rewrite map_map.
  - exists (fun i => fst (sphere_entry_angle (p_thickness P) (T i) 1)).
    split; [intros; apply sphere_entry_nonneg|]. rewrite map_map. now rewrite map2_maps.
Qed.

Lemma get_all_map {A} (f : A -> num) l d :
  get_all (map f l) = Some d -> d = map (fun a => nan_to_num (f a)) l
  /\ forall a, In a l -> f a <> None.
Proof.
  unfold get_all. destruct (existsb is_none (map f l)) eqn:E; [discriminate|].
  intros H; inversion H. split; [unfold somes; now rewrite map_map|].
  rewrite existsb_map_false in E. intros a Ha. specialize (E a Ha).
  destruct (f a); [congruence|discriminate].
Qed.

Lemma enter_slots P ft n T r :
  good_params P n ->
  fresnel_correct_enter (p_nmedium P) (p_nfront P) (choose_n_tir P) (p_boundary P)
    (p_thickness P) (map T (seq 0 n)) ft (p_kz0rot P) = Ok (Some r) ->
  exists inc, r = map inc (seq 0 n) /\ inc_ok ft n inc.
Proof.
  intros (Hm & Hs & Ht & Hf & Hb & Hkr & _). unfold fresnel_correct_enter.
  destruct ft.
  - intros H; inversion H. exists (fun _ => 1). rewrite map_map. split; [reflexivity|].
    intros i Hi; split; [lra|reflexivity].
  - assert (G : forall ia : list num, (exists f, ia = map f (seq 0 n)) ->
      match get_all ia with
      | Some d => bind (fresnel_pass_frac (p_nmedium P) (p_nfront P) (choose_n_tir P)
           (get_angles (map (fun _ => 1%nat) (map T (seq 0 n))) (p_boundary P)
              (map T (seq 0 n)) (p_thickness P) (Some d))) (fun fr => Ok (Some fr))
      | None => Ok None end = Ok (Some r) ->
      exists inc, r = map inc (seq 0 n) /\ inc_ok false n inc).
    { intros ia [f ->]. destruct (get_all (map f (seq 0 n))) as [d|] eqn:E; [|discriminate].
      apply get_all_map in E as [-> _].
      destruct (angles_entry P n T (fun a => nan_to_num (f a))) as [a [Ha ->]].
      destruct (fresnel_pass_frac _ _ _ _) as [l|e] eqn:E; [|discriminate]. cbn.
      intros H; inversion H; subst l. apply pass_frac_inv in E as [-> Hall].
      rewrite map_map. eexists. split; [reflexivity|].
      intros i Hi. split; [|discriminate].
      rewrite Forall_map in Hall. rewrite Forall_forall in Hall.
      assert (a i <= PI / 2) by (apply Hall, in_seq; lia).
      pose proof (pf1_bounds (p_nmedium P) (p_nfront P) (choose_n_tir P) (a i) Hm Hf Ht (conj (Ha i) H0)).
      lra. }
    apply G. destruct (p_boundary P).
    + destruct (p_kz0rot P) as [k|] eqn:Ek.
      * exists (fun i => Some (nth i k 0)).
        rewrite (list_as_map 0 k) at 1. rewrite (Hkr k eq_refl), map_map. reflexivity.
      * cbn [get_angles]. rewrite map_map.
        rewrite (map2_maps film_exit_angle T (fun _ => 1%nat)), map_map.
        eexists; reflexivity.
    + exists (fun _ => Some 1). now rewrite map_map.
Qed.

Definition di_ok (P : params) (n : nat) (inc di : nat -> R) : Prop :=
  (forall i, (i < n)%nat -> di i = 1 - inc i \/ di i = 0)
  /\ (p_kz0rot P = None -> p_detection P = PI / 2 -> forall i, (i < n)%nat -> di i = 1 - inc i).

Lemma inc_det_slots P n T inc :
  good_params P n ->
  exists di, di_ok P n inc di /\
  match p_kz0rot P, p_kz0refl P with
    | Some _, Some kr =>
        map2 (fun k w => if Rltb (acos k) (PI - p_detection P) then 0 else w) kr
          (map (fun x => 1 - x) (map inc (seq 0 n)))
    | _, _ =>
        detect_correct
          (get_angles (map (fun _ => 1%nat) (map T (seq 0 n))) (p_boundary P) (map T (seq 0 n))
             (p_thickness P)
             (Some (map (fun t => vz (nth 0 (t_dir t) vzero)) (map T (seq 0 n)))))
          (map (fun x => 1 - x) (map inc (seq 0 n))) (p_nmedium P) (p_nmedium P) (p_detection P)
    end = map di (seq 0 n).
Proof.
  intros (Hm & Hs & Ht & Hf & Hb & Hkr & Hkf). rewrite map_map.
  assert (G : exists di, di_ok P n inc di /\
     detect_correct
          (get_angles (map (fun _ => 1%nat) (map T (seq 0 n))) (p_boundary P) (map T (seq 0 n))
             (p_thickness P)
             (Some (map (fun t => vz (nth 0 (t_dir t) vzero)) (map T (seq 0 n)))))
          (map (fun x => 1 - inc x) (seq 0 n)) (p_nmedium P) (p_nmedium P) (p_detection P)
     = map di (seq 0 n)).
  { rewrite (map_map T (fun t => vz (nth 0 (t_dir t) vzero))).
    destruct (angles_entry P n T (fun i => vz (nth 0 (t_dir (T i)) vzero))) as [a [_ ->]].
    unfold detect_correct. rewrite map2_maps. eexists. split; [|reflexivity]. split.
    - intros i Hi. apply detect1_cases.
    - intros _ Hd i Hi. rewrite Hd. apply detect1_same. lra. }
  destruct (p_kz0rot P) as [kr|] eqn:Er; [|exact G].
  destruct (p_kz0refl P) as [kf|] eqn:Ef; [|exact G].
  exists (fun i => if Rltb (acos (nth i kf 0)) (PI - p_detection P) then 0 else 1 - inc i).
  split.
  - split; [|congruence]. intros i Hi. destruct (Rltb _ _); auto.
  - rewrite (list_as_map 0 kf) at 1. rewrite (Hkf kf eq_refl), map2_maps. reflexivity.
Qed.

Lemma first_pass_slots_enter P ft n T q :
  good_params P n ->
  first_pass P ft (map T (seq 0 n)) = Ok (Some q) ->
  exists inc di, inc_ok ft n inc /\ di_ok P n inc di
    /\ q = sl_pass P ft n T inc di
    /\ (forall i, (i < n)%nat -> 0 <= sl_ar P T i <= PI / 2)
    /\ (forall i, (i < n)%nat -> 0 <= sl_at P T i <= PI / 2)
    /\ fresnel_correct_enter (p_nmedium P) (p_nfront P) (choose_n_tir P) (p_boundary P)
         (p_thickness P) (map (sl_tr P T) (seq 0 n)) ft (p_kz0rot P) = Ok (Some (map inc (seq 0 n))).
Proof.
  intros Hg Hq. unfold first_pass in Hq.
  assert (Hk : (p_kz0rot P = None /\ p_kz0refl P = None)
               \/ exists a b, p_kz0rot P = Some a /\ p_kz0refl P = Some b).
  { destruct (p_kz0rot P), (p_kz0refl P); try discriminate; eauto. }
  assert (Hq2 : match p_kz0rot P with Some _ => match p_kz0refl P with Some _ => True | None => False end
                | None => match p_kz0refl P with Some _ => False | None => True end end).
  { destruct Hk as [[-> ->]|[a [b [-> ->]]]]; exact I. }
  destruct (p_kz0rot P) as [kr|] eqn:Er; destruct (p_kz0refl P) as [kf|] eqn:Ef; try contradiction;
  clear Hk Hq2.
  all: cbv zeta in Hq; rewrite !map_map in Hq;
    fold (sl_nt P) in Hq;
    change (fun x => i_trans (event_indices (sl_nt P) (p_nmedium P) (p_thickness P) (p_zlow P) (p_boundary P) (T x)))
      with (sl_ti P T) in Hq;
    change (fun x => i_stuck (event_indices (sl_nt P) (p_nmedium P) (p_thickness P) (p_zlow P) (p_boundary P) (T x)))
      with (sl_si P T) in Hq.
  all: assert (Etr : match p_gonio P with
               | Some _ => map2 shift_traj_tir (map T (seq 0 n))
                   (map (fun x => i_tir (event_indices (sl_nt P) (p_nmedium P) (p_thickness P) (p_zlow P) (p_boundary P) (T x))) (seq 0 n))
               | None => map T (seq 0 n) end = map (sl_tr P T) (seq 0 n)).
  1, 3: (unfold sl_tr; destruct (p_gonio P); [rewrite map2_maps|]; reflexivity).
  all: rewrite Etr in Hq.
  all: assert (Eri : match p_gonio P with
               | Some (th, len, dist) =>
                   map2 (fun i t => calc_index_detected i t th len dist (Rabs (p_nsample P)) (p_nmedium P))
                    (map (fun x => i_refl (event_indices (sl_nt P) (p_nmedium P) (p_thickness P) (p_zlow P) (p_boundary P) (T x))) (seq 0 n))
                    (map (sl_tr P T) (seq 0 n))
               | None => map (fun x => i_refl (event_indices (sl_nt P) (p_nmedium P) (p_thickness P) (p_zlow P) (p_boundary P) (T x))) (seq 0 n)
               end = map (sl_ri P T) (seq 0 n)).
  1, 3: (unfold sl_ri; destruct (p_gonio P) as [[[a b] c]|]; [rewrite map2_maps|]; reflexivity).
  all: rewrite Eri in Hq.
  all: destruct (fresnel_correct_enter _ _ _ _ _ _ _ _) as [[r|]|e] eqn:Een; try discriminate.
  all: unfold sl_nt in Een at 1; rewrite <- Er in Een; apply (enter_slots P ft n _ r Hg) in Een;
       destruct Een as [inc [-> Hinc]].
  all: cbn [bind] in Hq; unfold calc_outcome_weights, select_all in Hq;
    rewrite ?(map_map (sl_tr P T) t_w), ?map2_maps in Hq;
    unfold fresnel_correct_exit in Hq;
    rewrite !(get_angles_exit P n) in Hq;
    fold (sl_ar P T) in Hq; fold (sl_at P T) in Hq.
  all: destruct (fresnel_pass_frac _ _ _ _) as [pr|e] eqn:Epr; [|discriminate];
       cbn [bind] in Hq;
       destruct (fresnel_pass_frac (sl_nt P) (p_nback P) (p_nmedium P) (map (sl_at P T) (seq 0 n))) as [pt|e] eqn:Ept; [|discriminate];
       apply pass_frac_inv in Epr as [-> Har]; apply pass_frac_inv in Ept as [-> Hat].
  all: cbn [bind] in Hq.
  all: unfold detect_corrected_traj in Hq.
  all: destruct (inc_det_slots P n (sl_tr P T) inc Hg) as [di [Hdi Edi]]; rewrite ?Er, ?Ef in Edi.
  all: try rewrite Edi in Hq.
  all: cbn [x_refl_pass x_trans_pass x_refl_fresnel x_trans_fresnel] in Hq.
  all: rewrite !map_map, !map2_maps in Hq; unfold detect_correct in Hq;
       rewrite !(get_angles_exit P n), !map2_maps in Hq.
  all: exists inc, di; split; [exact Hinc|]; split; [exact Hdi|]; split.
  all: try (split; [intros i Hi; rewrite Forall_map, Forall_forall in Har; split;
       [apply exit_angle_nonneg|apply (Har i), in_seq; lia]|]; split;
     [intros i Hi; rewrite Forall_map, Forall_forall in Hat; split;
       [apply exit_angle_nonneg|apply (Hat i), in_seq; lia]|reflexivity]).
  all: injection Hq as Hq; rewrite <- Hq; unfold sl_pass, sl_exit, sl_known.
  all: rewrite !Rsum_total, !map_length, !seq_length.
  all: reflexivity.
Qed.

Lemma first_pass_slots P ft n T q :
  good_params P n ->
  first_pass P ft (map T (seq 0 n)) = Ok (Some q) ->
  exists inc di, inc_ok ft n inc /\ di_ok P n inc di
    /\ q = sl_pass P ft n T inc di
    /\ (forall i, (i < n)%nat -> 0 <= sl_ar P T i <= PI / 2)
    /\ (forall i, (i < n)%nat -> 0 <= sl_at P T i <= PI / 2).
Proof.
  intros Hg Hq. destruct (first_pass_slots_enter P ft n T q Hg Hq) as (inc & di & H1 & H2 & H3 & H4 & H5 & _).
  exists inc, di. auto.
Qed.
