(** Proofs about coarse roughness (C138-C140). *)
From Coq Require Import Lra Lia Psatz.
From Verif Require Import Num Spec M_init M_montecarlo M_detector M_scat M_fields M_simulation M_rough
  Spec_rough Spec_scat Spec_detector L_num L_init L_montecarlo L_montecarlo2 L_fields L_sampling L_slots L_accounting L_conserve L_outcomes L_simulation L_reflection.
From Coquelicot Require Import Hierarchy Derive AutoDerive ElemFct.
Open Scope R_scope.

Lemma slope_cdf t r : -(PI / 2) < t < PI / 2 -> r <> 0 ->
  is_derive (fun a : R_AbsRing => 1 - exp (- (tan a) ^ 2 / (2 * r ^ 2))) t (P_theta_a t r).
Proof.
  intros Ht Hr. assert (Hc : 0 < cos t) by (apply cos_gt_0; lra).
  assert (D : is_derive (fun u : R_AbsRing => 1 - exp (- u ^ 2 / (2 * r ^ 2))) (tan t)
     (tan t / r ^ 2 * exp (- (tan t) ^ 2 / (2 * r ^ 2)))).
  { auto_derive; [exact Logic.I|]. set (E := exp _).
    field. exact Hr. }
  assert (D2 : is_derive tan t (1 + tan t ^ 2)).
  { replace (1 + tan t ^ 2) with (tan t ^ 2 + 1) by ring. apply ElemFct.is_derive_tan. lra. }
  pose proof (is_derive_comp (fun u : R_AbsRing => 1 - exp (- u ^ 2 / (2 * r ^ 2))) tan t _ _ D D2) as D3.
  eapply is_derive_ext_loc; [|].
  2:{ replace (P_theta_a t r) with (Hierarchy.scal (1 + tan t ^ 2) (tan t / r ^ 2 * exp (- (tan t) ^ 2 / (2 * r ^ 2)))); [exact D3|].
      unfold P_theta_a, Hierarchy.scal; cbn -[pow]. unfold Hierarchy.mult; cbn -[pow]. unfold tan at 1 2. set (E := exp _).
      pose proof (cs2 t) as C. assert (C' : cos t ^ 2 + sin t ^ 2 = 1) by (cbn; lra).
      replace (1 + (sin t / cos t) ^ 2) with (/ cos t ^ 2).
      - field. split; lra.
      - transitivity ((cos t ^ 2 + sin t ^ 2) / cos t ^ 2); [rewrite C'; field; lra|field; lra]. }
  apply Hierarchy.filter_forall. intros y. reflexivity.
Qed.

Lemma slope_cdf_lim t r : -(PI / 2) < t < PI / 2 -> r <> 0 ->
  derivable_pt_lim (fun a => 1 - exp (- (tan a) ^ 2 / (2 * r ^ 2))) t (P_theta_a t r).
Proof. intros Ht Hr. apply is_derive_Reals. now apply slope_cdf. Qed.

Lemma facet_angle_at i : (i < 500)%nat -> nth i facet_angles 0 = INR i * (PI / 998).
Proof.
  intros Hi. unfold facet_angles. rewrite nth_linspace by exact Hi. unfold grid.
  replace (INR (500 - 1)) with 499 by (cbn [Nat.sub]; rewrite INR_IZR_INZ; reflexivity). field.
Qed.
Lemma facet_in i : (i < 499)%nat -> 0 <= nth i facet_angles 0 < PI / 2.
Proof.
  intros Hi. rewrite facet_angle_at by lia. pose proof PI_RGT_0.
  assert (0 <= INR i <= 498).
  { split; [apply pos_INR|]. replace 498 with (INR 498) by (rewrite INR_IZR_INZ; reflexivity). apply le_INR. lia. }
  split; nra.
Qed.
Lemma facet_weight_nonneg r i : r <> 0 -> (i < 500)%nat -> 0 <= facet_weight r i.
Proof.
  intros Hr Hi. unfold facet_weight. destruct (Nat.eqb_spec i 499); [lra|]. apply P_theta_a_nonneg; [|exact Hr].
  apply facet_in. lia.
Qed.
Lemma P_pos t r : 0 < t < PI / 2 -> r <> 0 -> 0 < P_theta_a t r.
Proof.
  intros Ht Hr. unfold P_theta_a. apply Rmult_lt_0_compat; [|apply exp_pos].
  assert (0 < sin t) by (apply sin_gt_0; lra). assert (0 < cos t) by (apply cos_gt_0; lra). assert (0 < r ^ 2) by nra.
  apply Rdiv_lt_0_compat; [apply Rdiv_lt_0_compat; assumption|apply pow_lt; assumption].
Qed.
Lemma total_pos_at (w : nat -> R) n k : (forall i, (i < n)%nat -> 0 <= w i) -> (k < n)%nat -> 0 < w k -> 0 < total (map w (seq 0 n)).
Proof.
  intros Hw Hk Hp. pose proof (total_seq_mono w n (S k) n Hw ltac:(lia)) as H.
  pose proof (total_seq_mono w n 0 k Hw ltac:(lia)) as H0. cbn [seq map total] in H0.
  rewrite seq_S, map_app, total_app in H. cbn [map total Nat.add] in H. lra.
Qed.
Lemma weights_positive r : r <> 0 -> 0 < total (map (facet_weight r) (seq 0 500)).
Proof.
  intros Hr. apply (total_pos_at (facet_weight r) 500 1); [intros; now apply facet_weight_nonneg|lia|].
  change (facet_weight r 1) with (P_theta_a (nth 1 facet_angles 0) r).
  apply P_pos; [|exact Hr]. rewrite facet_angle_at by lia. pose proof PI_RGT_0. cbn [INR]. lra.
Qed.
Lemma picks_positive w n u i : picks w n u i -> 0 < w i.
Proof.
  intros (Hi & H1 & H2). rewrite seq_S, map_app, total_app in H2. cbn [map total Nat.add] in H2. lra.
Qed.

Lemma mapM_all {A B} (f : A -> result B) l : (forall a, In a l -> exists b, f a = Ok b) -> exists out, mapM f l = Ok out.
Proof.
  induction l as [|a l IH]; intros H; cbn; [eauto|]. destruct (H a (or_introl eq_refl)) as [b ->]. cbn [bind].
  destruct IH as [out ->]; [intros; apply H; now right|]. cbn. eauto.
Qed.

Lemma Ok_inj {A} (x y : A) : Ok x = Ok y -> x = y.
Proof. intros H. injection H. tauto. Qed.
Lemma sample_facets_ok r ntraj u : r <> 0 -> (forall i, (i < ntraj)%nat -> 0 <= u i < 1) ->
  exists l, sample_facets r ntraj u = Ok l /\ length l = ntraj
    /\ forall i, (i < ntraj)%nat -> exists j, picks (facet_weight r) 500 (u i) j
         /\ nth i l 0 = nth j facet_angles 0 /\ 0 < nth i l 0 < PI / 2.
Proof.
  intros Hr Hu. unfold sample_facets. rewrite (proj2 (Reqb_false _ _)) by exact Hr.
  set (f := fun i => bind _ _).
  assert (Hf : forall i, (i < ntraj)%nat -> exists j, f i = Ok (nth j facet_angles 0) /\ picks (facet_weight r) 500 (u i) j).
  { intros i Hi. destruct (choice_picks (facet_weight r) 500 (u i)) as (j & Ej & Pj); auto using facet_weight_nonneg, weights_positive.
    exists j. split; [|exact Pj]. unfold f. rewrite Ej. reflexivity. }
  destruct (mapM_all f (seq 0 ntraj)) as [l El].
  { intros i Hi. apply in_seq in Hi. destruct (Hf i ltac:(lia)) as (j & -> & _). eauto. }
  destruct (mapM_nth _ _ _ El) as [Ll Hl]. rewrite seq_length in Ll.
  exists l. split; [exact El|]. split; [exact Ll|]. intros i Hi. destruct (Hf i Hi) as (j & Ej & Pj).
  exists j. split; [exact Pj|].
  assert (En : nth_error (seq 0 ntraj) i = Some i).
  { rewrite (nth_error_nth' _ 0%nat) by (rewrite seq_length; exact Hi). rewrite seq_nth by exact Hi. reflexivity. }
  specialize (Hl i i 0 En). rewrite Ej in Hl. apply Ok_inj in Hl. split; [now symmetry|]. rewrite <- Hl.
  pose proof (picks_positive _ _ _ _ Pj) as Hw. destruct Pj as (Hj & _). unfold facet_weight in Hw.
  destruct (Nat.eqb_spec j 499); [lra|]. split; [|apply facet_in; lia].
  destruct (Nat.eq_dec j 0) as [->|Hj0].
  2:{ pose proof (facet_angle_at j Hj) as Ea. pose proof PI_RGT_0. assert (0 < INR j) by (apply lt_0_INR; lia).
      assert (0 < INR j * (PI / 998)) by (apply Rmult_lt_0_compat; lra). lra. }
  exfalso. rewrite facet_angle_at in Hw by lia. cbn [INR] in Hw. unfold P_theta_a in Hw. rewrite Rmult_0_l, sin_0 in Hw. unfold Rdiv in Hw.
  rewrite !Rmult_0_l in Hw. lra.
Qed.

(** * Refraction at one facet *)
Lemma rough_some k a nm ns : 0 < nm <= Rabs ns -> exists k', fst (fst (rough_enter1 k a nm ns)) = Some k'.
Proof.
  intros Hn. unfold rough_enter1. cbv zeta. cbn [fst snd]. unfold refraction.
  set (th := acos _). pose proof (SIN_bound th).
  assert (0 < nm / Rabs ns) by (apply Rdiv_lt_0_compat; lra).
  assert (nm / Rabs ns <= 1). { apply (Rmult_le_reg_r (Rabs ns)); [lra|]. unfold Rdiv. rewrite Rmult_assoc, Rinv_l by lra. lra. }
  rewrite (proj2 (Rltb_false _ _)); [eauto|]. apply Rabs_le. split; nra.
Qed.

Lemma facet_snell k a nm ns k' kzr refl : unit k -> 0 < nm -> ns <> 0 ->
  rough_enter1 k a nm ns = (Some k', kzr, refl) ->
  0 <= dot k' (facet_normal a)
  /\ nm ^ 2 * (1 - dot k (facet_normal a) ^ 2) = ns ^ 2 * (1 - dot k' (facet_normal a) ^ 2).
Proof.
  intros U Hnm Hns H. unfold rough_enter1 in H. cbv zeta in H.
  assert (Em : vx (rot_y a k) ^ 2 + vy (rot_y a k) ^ 2 + vz (rot_y a k) ^ 2 = 1).
  { unfold unit in U. rewrite <- (rot_y_dot a k k) in U. unfold dot in U. rewrite <- U. ring. }
  rewrite Em, sqrt_1, rot_y_z in H. set (c := dot k (facet_normal a)) in *.
  assert (Hc : -1 <= c <= 1). { rewrite rot_y_z in Em. fold c in Em. nra. }
  unfold Rdiv in H at 1. rewrite Rinv_1, Rmult_1_r in H.
  unfold refraction in H. rewrite sin_acos in H by exact Hc.
  set (s := sqrt (1 - c²)) in *. destruct (Rltb 1 _) eqn:El; [discriminate|]. apply Rltb_false in El.
  set (x := nm / Rabs ns * s) in *. injection H as H _ _.
  assert (Hs2 : s ^ 2 = 1 - c ^ 2). { unfold s. rewrite <- Rsqr_pow2, Rsqr_sqrt; [unfold Rsqr; ring|unfold Rsqr; nra]. }
  assert (Hx : -1 <= x <= 1) by (apply Rabs_le_inv' in El || (split; [pose proof (Rle_abs (- x)); rewrite Rabs_Ropp in *|pose proof (Rle_abs x)]; lra)).
  assert (E : dot k' (facet_normal a) = cos (asin x)).
  { rewrite <- H, <- (rot_y_z a). unfold rot_y. cbn [vx vy vz fst snd].
    replace (2 * PI - a) with (- a + 2 * INR 1 * PI) by (cbn; ring). rewrite cos_period, sin_period, cos_neg, sin_neg.
    set (q := cos (asin x)). set (y := sin (asin x) * _). pose proof (cs2 a) as C.
    transitivity ((sin a * sin a + cos a * cos a) * q); [ring|rewrite C; ring]. }
  rewrite E, cos_asin by exact Hx. split; [apply sqrt_pos|].
  rewrite <- (Rsqr_pow2 (sqrt _)), Rsqr_sqrt by (unfold Rsqr; nra).
  unfold Rsqr. replace (1 - (1 - x * x)) with (x ^ 2) by ring. unfold x. unfold Rdiv. rewrite !Rpow_mult_distr, Hs2.
  assert (Ha : Rabs ns ^ 2 = ns ^ 2) by (rewrite RPow_abs, Rabs_pos_eq by (apply pow2_ge_0); reflexivity).
  rewrite pow_inv, Ha by (apply Rabs_no_R0, Hns). field. exact Hns.
Qed.

Lemma normal_facet a nm ns k' kzr refl : 0 <= a < PI / 2 -> 0 < nm <= ns ->
  rough_enter1 ez a nm ns = (Some k', kzr, refl) ->
  kzr = cos a /\ vz refl = - cos (2 * a) /\ 0 < vz k'.
Proof.
  intros Ha Hn H. destruct (rough_reflection _ _ _ _ _ _ _ H) as (Er & Ek & _).
  assert (Ek' : kzr = cos a) by (rewrite Ek; unfold dot, ez, facet_normal; cbn; ring).
  split; [exact Ek'|]. split.
  { rewrite Er, cos_2a. unfold mirror, facet_normal, vsub, vscale, dot, ez. cbn. pose proof (cs2 a). nra. }
  assert (Hc : 0 < cos a) by (apply cos_gt_0; lra). assert (Hs : 0 <= sin a) by (apply sin_ge_0; lra).
  unfold rough_enter1 in H. cbv zeta in H. unfold rot_y at 1 2 3 4 5 6 7 8 in H. unfold ez in H. cbn [vx vy vz fst snd] in H.
  replace (sin a * 0 + cos a * 1) with (cos a) in H by ring.
  replace (cos a * 0 - sin a * 1) with (- sin a) in H by ring.
  replace ((- sin a) ^ 2 + 0 ^ 2 + cos a ^ 2) with 1 in H by (pose proof (cs2 a); lra).
  rewrite sqrt_1 in H. unfold Rdiv in H at 1 2. rewrite Rinv_1, !Rmult_1_r in H.
  rewrite acos_cos in H by lra. unfold refraction in H. destruct (Rltb 1 _); [discriminate|].
  rewrite (Rabs_right ns) in H by lra. set (x := nm / ns * sin a) in *. injection H as H _ _.
  rewrite <- H. unfold rot_y. cbn [vz snd vx fst].
  replace (2 * PI - a) with (- a + 2 * INR 1 * PI) by (cbn; ring). rewrite cos_period, sin_period, cos_neg, sin_neg.
  pose proof (SIN_bound a) as Hsb.
  match goal with |- context [acos (- sin a / sqrt ?e)] => replace e with 1 by (pose proof (cs2 a); lra) end.
  rewrite sqrt_1. unfold Rdiv at 1. rewrite Rinv_1, Rmult_1_r.
  rewrite cos_acos by lra.
  assert (Hx0 : 0 <= nm / ns <= 1).
  { split; [left; apply Rdiv_lt_0_compat; lra|]. apply (Rmult_le_reg_r ns); [lra|]. unfold Rdiv. rewrite Rmult_assoc, Rinv_l by lra. lra. }
  assert (Hs1 : sin a < 1). { pose proof (cs2 a). nra. }
  assert (Hx : 0 <= x < 1) by (unfold x; nra).
  rewrite sin_asin, cos_asin by lra. assert (0 < sqrt (1 - x²)) by (apply sqrt_lt_R0; unfold Rsqr; nra).
  assert (0 <= x * sin a * sin a) by (apply Rmult_le_pos; [apply Rmult_le_pos|]; lra).
  assert (0 < cos a * sqrt (1 - x²)) by (apply Rmult_lt_0_compat; assumption). lra.
Qed.

(** * Launch and run *)
Lemma incident_unit theta phi : unit (incident theta phi).
Proof.
  unfold unit, dot, incident. cbn. pose proof (cs2 theta) as H1. pose proof (cs2 phi) as H2.
  transitivity (sin theta * sin theta * (sin phi * sin phi + cos phi * cos phi) + cos theta * cos theta); [ring|rewrite H2; lra].
Qed.

Lemma nth_map2 {A B D} (f : A -> B -> D) : forall l m i a b d, (i < length l)%nat -> (i < length m)%nat ->
  nth i (map2 f l m) d = f (nth i l a) (nth i m b).
Proof. induction l as [|x l IH]; intros [|y m] [|i] a b d H1 H2; cbn in *; try lia; [reflexivity|]. apply IH; lia. Qed.
Lemma length_map2 {A B D} (f : A -> B -> D) : forall l m, length l = length m -> length (map2 f l m) = length l.
Proof. induction l as [|x l IH]; intros [|y m] H; cbn in *; try lia. rewrite IH; lia. Qed.

Lemma rough_launch_ok nev ntraj spot tmin tmax pmin pmax nm ns r ux uy ut up uf :
  0 < nm <= ns -> r <> 0 -> (forall i, (i < ntraj)%nat -> 0 <= uf i < 1) ->
  exists starts facets, rough_launch nev ntraj spot tmin tmax pmin pmax nm ns r ux uy ut up uf
     = Ok (starts,
           map (fun i => dot (incident (uniform tmin tmax (ut i)) (uniform pmin pmax (up i))) (facet_normal (facets i))) (seq 0 ntraj),
           map (fun i => vz (mirror (facet_normal (facets i)) (incident (uniform tmin tmax (ut i)) (uniform pmin pmax (up i))))) (seq 0 ntraj))
  /\ length starts = ntraj
  /\ (forall i, (i < ntraj)%nat -> exists j, picks (facet_weight r) 500 (uf i) j
         /\ facets i = nth j facet_angles 0 /\ 0 < facets i < PI / 2)
  /\ forall i s, nth_error starts i = Some s -> exists k',
       s = ((ux i * spot, uy i * spot, 0), Some k', repeat 1 nev)
       /\ let k := incident (uniform tmin tmax (ut i)) (uniform pmin pmax (up i)) in
          fst (fst (rough_enter1 k (facets i) nm ns)) = Some k'.
Proof.
  intros Hn Hr Hu. destruct (sample_facets_ok r ntraj uf Hr Hu) as (l & El & Ll & Hl).
  unfold rough_launch. rewrite El. cbn [bind coarse_roughness_enter].
  set (k0 := fun i => incident (uniform tmin tmax (ut i)) (uniform pmin pmax (up i))).
  change (fun i : nat => (sin (uniform tmin tmax (ut i)) * cos (uniform pmin pmax (up i)),
     sin (uniform tmin tmax (ut i)) * sin (uniform pmin pmax (up i)), cos (uniform tmin tmax (ut i)))) with k0.
  set (g := fun k t => rough_enter1 k t nm ns).
  assert (Erough : map2 g (map k0 (seq 0 ntraj)) l = map (fun i => g (k0 i) (nth i l 0)) (seq 0 ntraj)).
  { rewrite (list_as_map l 0) at 1. rewrite Ll. apply map2_maps. }
  match goal with |- context [@map2 ?A1 ?A2 ?A3 g ?x ?y] => replace (@map2 A1 A2 A3 g x y) with (map (fun i => g (k0 i) (nth i l 0)) (seq 0 ntraj)) by (symmetry; exact Erough) end.
  rewrite !map_map.
  assert (Es : map2 (fun i x => ((ux i * spot, uy i * spot, 0), fst (fst x), repeat 1 nev)) (seq 0 ntraj)
     (map (fun i => g (k0 i) (nth i l 0)) (seq 0 ntraj))
     = map (fun i => ((ux i * spot, uy i * spot, 0), fst (fst (g (k0 i) (nth i l 0))), repeat 1 nev)) (seq 0 ntraj)).
  { clear. generalize (seq 0 ntraj). intros q. induction q as [|a q IH]; cbn [map map2]; [reflexivity|]. rewrite IH. reflexivity. }
  rewrite Es.
  assert (Hg : forall i, snd (fst (g (k0 i) (nth i l 0))) = dot (k0 i) (facet_normal (nth i l 0))
     /\ snd (g (k0 i) (nth i l 0)) = mirror (facet_normal (nth i l 0)) (k0 i)).
  { intros i. destruct (g (k0 i) (nth i l 0)) as [[a b] c] eqn:E. destruct (rough_reflection _ _ _ _ _ _ _ E) as (-> & -> & _). split; reflexivity. }
  eexists _, (fun i => nth i l 0). split; [|split; [|split]].
  - do 2 f_equal; [f_equal|].
    + apply map_ext. intros i. apply (proj1 (Hg i)).
    + apply map_ext. intros i. f_equal. apply (proj2 (Hg i)).
  - now rewrite map_length, seq_length.
  - exact Hl.
  - intros i s Hi. apply map_seq_nth_error in Hi as [Hi <-].
    destruct (rough_some (k0 i) (nth i l 0) nm ns) as [k' Ek]; [rewrite Rabs_right by lra; exact Hn|].
    exists k'. split; [|exact Ek]. unfold g. rewrite Ek. reflexivity.
Qed.

Lemma first_pass_rough P ft trs q kr kf : p_kz0rot P = Some kr -> p_kz0refl P = Some kf -> p_gonio P = None ->
  first_pass P ft trs = Ok (Some q) ->
  exists inc, fresnel_correct_enter (p_nmedium P) (p_nfront P) (choose_n_tir P) (p_boundary P) (p_thickness P) trs ft (Some kr) = Ok (Some inc)
    /\ q_inc_refl_det q = map2 (fun k w => if Rltb (acos k) (PI - p_detection P) then 0 else w) kf (map (fun x => 1 - x) inc).
Proof.
  intros E1 E2 Hg H. unfold first_pass in H. rewrite E1, E2, Hg in H. cbv zeta in H.
  destruct (fresnel_correct_enter _ _ _ _ _ _ _ _) as [[inc|]|e] eqn:Ei; [|discriminate|discriminate]. cbn [bind] in H.
  exists inc. split; [reflexivity|].
  destruct (calc_outcome_weights _ _ _ _ _) as [[[rw tw] sw] ab]. destruct (fresnel_correct_exit _ _ _ _ _ _ _ _ _ _ _ _ _) as [x|e]; [|discriminate].
  cbn [bind] in H. unfold detect_corrected_traj in H.
  match type of H with Ok (Some ?a) = _ => assert (Hq : q = a) by congruence end. rewrite Hq. reflexivity.
Qed.

(** Exact balance of a film without re-runs, absorption and goniometer. *)
Lemma crt_balance fuel angs steps P d n T o :
  (0 < n)%nat -> good_params P n -> p_gonio P = None -> p_detection P = PI / 2 -> Rabs (p_nsample P) <= choose_n_tir P ->
  p_boundary P = film -> p_run P = false ->
  (forall i, (i < n)%nat -> wf_len (T i) /\ flat 1 (T i) /\ dirs_ok (T i)) ->
  calc_refl_trans (S fuel) angs steps P false d (map T (seq 0 n)) = Ok (Some o) ->
  exists q inc di, first_pass P false (map T (seq 0 n)) = Ok (Some q)
    /\ q = sl_pass P false n T inc di
    /\ fresnel_correct_enter (p_nmedium P) (p_nfront P) (choose_n_tir P) (p_boundary P)
         (p_thickness P) (map (sl_tr P T) (seq 0 n)) false (p_kz0rot P) = Ok (Some (map inc (seq 0 n)))
    /\ o_refl o + o_trans o = total (map (fun i => inc i + di i) (seq 0 n)) / INR n.
Proof.
  intros Hn Hg Hgo Hde Hle Hb Hr HT H. cbn [calc_refl_trans] in H.
  destruct (first_pass P false (map T (seq 0 n))) as [[q|]|e] eqn:Eq; [|discriminate|discriminate].
  cbn [bind] in H.
  destruct (first_pass_slots_enter P false n T q Hg Eq) as (inc & di & Hinc & Hdi & Hq & Har & Hat & Hent).
  exists q, inc, di. split; [reflexivity|]. split; [exact Hq|]. split; [exact Hent|]. subst q.
  assert (HE : forall i, (i < n)%nat -> sl_rw P T inc i + sl_tw P T inc i + sl_sw P T inc i = inc i * 1).
  { intros i Hi. destruct (HT i Hi) as (Hwf & Hf & _). apply (slot_exact P n T inc 1 i); auto. }
  assert (HD : forall i, (i < n)%nat -> sl_dr P T inc i = sl_rp P T inc i /\ sl_dt P T inc i = sl_tp P T inc i).
  { intros i Hi. destruct (HT i Hi) as (Hwf & _ & Hd). set (P0 := mk_params (p_thickness P) (p_nmedium P) (p_nsample P) (p_boundary P) (p_zlow P) (p_detection P) (p_nfront P)
      (p_nback P) (p_run P) (p_maxdepth P) (p_maxstuck P) 0 (p_gonio P) None None (p_fine P) (p_nparticle P) (p_nmatrix P)).
    assert (G0 : good_params P0 n).
    { destruct Hg as (A1 & A2 & A3 & A4 & A5 & _). repeat split; try assumption; discriminate. }
    assert (X0 : exact_ok P0 true) by (repeat split; assumption).
    exact (detect_all P0 n T inc i G0 X0 Hwf (fun _ => Hd)). }
  assert (HI : 0 < INR n) by (apply lt_0_INR; lia).
  rewrite map_length, seq_length, Hr in H. cbn [andb] in H.
  assert (Hsplit : forall i, sl_rp P T inc i + sl_rf P T inc i = sl_rw P T inc i
                          /\ sl_tp P T inc i + sl_tf P T inc i = sl_tw P T inc i).
  { intros i. unfold sl_rf, sl_tf. lra. }
  unfold sl_pass in H. cbn [q_exit q_refl_det q_inc_refl_det q_trans_det q_stuck q_refl_i q_trans_i q_tir_i q_trs
       sl_exit x_refl_fresnel x_trans_fresnel x_refl_frac x_trans_frac q_refl_det_frac q_trans_det_frac] in H.
  destruct (distribute_ambig_traj_weights _ _ _ _ _ _ _ _ _ _ _ _) as [[[[R0 T0] rp] tp]|] eqn:Ed; [|discriminate].
  assert (H' := f_equal (fun x => match x with Ok (Some y) => y | _ => o end) H). cbn beta iota in H'. rewrite <- H'. clear H H'.
  cbn [make_outcome o_refl o_trans].
  assert (EDR : map (sl_dr P T inc) (seq 0 n) = map (sl_rp P T inc) (seq 0 n)).
  { apply map_ext_in. intros i Hi. apply in_seq in Hi. exact (proj1 (HD i (proj2 Hi))). }
  assert (EDT : map (sl_dt P T inc) (seq 0 n) = map (sl_tp P T inc) (seq 0 n)).
  { apply map_ext_in. intros i Hi. apply in_seq in Hi. exact (proj2 (HD i (proj2 Hi))). }
  rewrite EDR, EDT, !det_frac_same in Ed.
  assert (Edet : match p_gonio P with Some _ => true | None => false end = false) by (now rewrite Hgo).
  rewrite Edet in Ed.
  eapply distribute_exact in Ed; [| exact Hn | lra | lra | reflexivity | reflexivity | reflexivity |].
  - rewrite Ed. f_equal. apply total_map_ext. intros i Hi. apply in_seq in Hi. assert (Hi' : (i < n)%nat) by lia.
    specialize (HE i Hi'). destruct (Hsplit i) as [S1 S2]. lra.
  - intros Hfilm x y Ex Ey.
    apply ndiv_some in Ex as [Hk ->]. apply ndiv_some in Ey as [_ ->].
    assert (EK : sl_known P false n T inc = total (map (sl_rp P T inc) (seq 0 n)) + total (map (sl_tp P T inc) (seq 0 n))).
    { unfold sl_known. rewrite <- total_map_plus. apply total_map_ext. intros i Hi. apply in_seq in Hi.
      assert (Hi' : (i < n)%nat) by lia. specialize (HE i Hi'). unfold sl_ab. lra. }
    rewrite <- Rdiv_plus_distr, <- EK. field. exact Hk.
Qed.

Lemma get_all_Some (l : list R) : get_all (map Some l) = Some l.
Proof. rewrite <- (map_id l) at 2. apply (L_reflection.get_all_somes (fun x => x)). Qed.

Lemma film_angle_le x : 0 <= film_angle x <= PI / 2.
Proof. apply film_angle_range. Qed.

Lemma rough_down k : Rltb (acos k) (PI - PI / 2) = Rltb 0 k.
Proof.
  pose proof PI_RGT_0. destruct (Rlt_le_dec 0 k) as [Hk|Hk].
  - rewrite (proj2 (Rltb_true _ _) Hk). apply Rltb_true.
    destruct (Rle_lt_dec 1 k) as [H1|H1].
    + assert (acos k = 0) by (unfold acos; destruct (Rle_dec k (-1)); [lra|]; destruct (Rle_dec 1 k); [reflexivity|lra]). lra.
    + pose proof (acos_decreasing 0 k ltac:(lra) ltac:(lra) ltac:(lra)). rewrite acos_0 in *. lra.
  - rewrite (proj2 (Rltb_false 0 k)) by lra. apply Rltb_false.
    destruct (Rle_lt_dec k (-1)) as [H1|H1].
    + assert (acos k = PI) by (unfold acos; destruct (Rle_dec k (-1)); [reflexivity|lra]). lra.
    + destruct (Req_dec k 0) as [->|H0]; [rewrite acos_0; lra|].
      assert (Hk0 : k < 0) by (destruct Hk; [assumption|contradiction]). pose proof (acos_decreasing k 0 ltac:(lra) ltac:(lra) ltac:(lra)). rewrite acos_0 in *. lra.
Qed.

Lemma rough_balance fuel angs steps P d n T o (kr kf : nat -> R) :
  (0 < n)%nat -> good_params P n -> p_gonio P = None -> p_detection P = PI / 2 -> Rabs (p_nsample P) <= choose_n_tir P ->
  p_boundary P = film -> p_run P = false ->
  p_kz0rot P = Some (map kr (seq 0 n)) -> p_kz0refl P = Some (map kf (seq 0 n)) ->
  (forall i, (i < n)%nat -> wf_len (T i) /\ flat 1 (T i) /\ dirs_ok (T i)) ->
  calc_refl_trans (S fuel) angs steps P false d (map T (seq 0 n)) = Ok (Some o) ->
  o_refl o + o_trans o
  = 1 - total (map (fun i => if Rltb 0 (kf i) then 1 - pf1 (p_nmedium P) (p_nfront P) (choose_n_tir P) (acos (Rabs (kr i))) else 0) (seq 0 n)) / INR n.
Proof.
  intros Hn Hg Hgo Hde Hle Hb Hr E1 E2 HT H.
  destruct (crt_balance fuel angs steps P d n T o Hn Hg Hgo Hde Hle Hb Hr HT H) as (q & inc & di & Eq & Hq & Hent & ->).
  destruct (first_pass_rough P false (map T (seq 0 n)) q _ _ E1 E2 Hgo Eq) as (inc' & Hent' & Hdi).
  assert (Einc : inc' = map (fun i => pf1 (p_nmedium P) (p_nfront P) (choose_n_tir P) (acos (Rabs (kr i)))) (seq 0 n)).
  { unfold fresnel_correct_enter in Hent'. rewrite Hb, get_all_Some in Hent'. cbn [get_angles] in Hent'.
    rewrite pass_frac_ok in Hent'.
    2:{ apply Forall_forall. intros x Hx. rewrite map_map in Hx. apply in_map_iff in Hx as (i & <- & _). apply film_angle_le. }
    cbn [bind] in Hent'. rewrite !map_map in Hent'. unfold film_angle in Hent'. congruence. }
  assert (Einc2 : inc' = map inc (seq 0 n)).
  { unfold fresnel_correct_enter in Hent, Hent'. rewrite Hb, E1 in Hent. rewrite Hb in Hent'. rewrite get_all_Some in Hent, Hent'.
    cbn [get_angles] in Hent, Hent'. congruence. }
  rewrite Hq in Hdi. unfold sl_pass in Hdi. cbn [q_inc_refl_det] in Hdi. rewrite Einc2, map_map, map2_maps in Hdi.
  rewrite Einc in Einc2.
  assert (Hi : forall i, (i < n)%nat -> inc i = pf1 (p_nmedium P) (p_nfront P) (choose_n_tir P) (acos (Rabs (kr i)))
      /\ di i = if Rltb 0 (kf i) then 0 else 1 - inc i).
  { intros i Hi. split.
    - apply (f_equal (fun l => nth i l 0)) in Einc2. rewrite !nth_map_seq in Einc2 by exact Hi. now symmetry.
    - apply (f_equal (fun l => nth i l 0)) in Hdi. rewrite !nth_map_seq in Hdi by exact Hi.
      rewrite Hdi, Hde, rough_down. reflexivity. }
  assert (HI : 0 < INR n) by (apply lt_0_INR; lia).
  set (g := fun i => if Rltb 0 (kf i) then _ else 0).
  assert (Et : total (map (fun i => inc i + di i) (seq 0 n)) + total (map g (seq 0 n)) = INR n).
  { rewrite <- total_map_plus. transitivity (total (map (fun _ : nat => 1) (seq 0 n))).
    - apply total_map_ext. intros i Hin. apply in_seq in Hin. destruct (Hi i ltac:(lia)) as [Ei ->]. unfold g.
      rewrite Ei. destruct (Rltb 0 (kf i)); ring.
    - rewrite <- (seq_length n 0) at 2. generalize (seq 0 n). intros l. induction l as [|a l IH]; [reflexivity|]. cbn [map total length]. rewrite S_INR, IH. ring. }
  assert (E : total (map (fun i => inc i + di i) (seq 0 n)) = INR n - total (map g (seq 0 n))) by lra.
  rewrite E. field. lra.
Qed.
Lemma facet_law_eq r j : (j < 500)%nat -> facet_weight r j = facet_law r j.
Proof.
  intros Hj. unfold facet_weight, facet_law. destruct (Nat.eqb_spec j 499) as [E|E]; [reflexivity|].
  rewrite facet_angle_at by exact Hj. change (INR j * (PI / 998)) with (facet_angle j). unfold P_theta_a, slope_density. f_equal.
  unfold Rdiv. rewrite Rinv_mult. ring.
Qed.
Lemma picks_ext w w' n u i : (forall j, (j < n)%nat -> w j = w' j) -> picks w n u i -> picks w' n u i.
Proof.
  intros H (Hi & H1). split; [exact Hi|].
  assert (E : forall m, (m <= n)%nat -> total (map w' (seq 0 m)) = total (map w (seq 0 m))).
  { intros m Hm. f_equal. apply map_ext_in. intros a Ha. apply in_seq in Ha. symmetry. apply H. lia. }
  rewrite !E by lia. exact H1.
Qed.

Lemma with_rough_valid P n kr kf : valid_params P n -> length kr = n -> length kf = n -> valid_params (with_rough P kr kf) n.
Proof.
  intros (H1 & H2 & H3 & H4 & H5 & H6 & H7 & _ & _) L1 L2. unfold valid_params, with_rough; cbn.
  do 7 (split; [assumption|]). split; intros l E; injection E as <-; assumption.
Qed.
Lemma with_rough_tir P kr kf : choose_n_tir (with_rough P kr kf) = choose_n_tir P.
Proof. reflexivity. Qed.

Lemma rough_run_ok nev ntraj spot tmin tmax pmin pmax mu r P D uf :
  (0 < nev)%nat -> (0 < ntraj)%nat -> 0 < mu -> 0 <= p_muabs P -> r <> 0 ->
  (forall n i, 0 <= d_u D n i < 1) -> (forall i, (i < ntraj)%nat -> 0 <= uf i < 1) ->
  valid_params P ntraj -> 0 < p_nmedium P <= p_nsample P -> p_boundary P = film -> p_run P = false ->
  exists oo facets, rough_film_run nev ntraj spot tmin tmax pmin pmax mu r P D uf = Ok oo
    /\ (forall i, (i < ntraj)%nat -> exists j, picks (facet_law r) 500 (uf i) j
           /\ facets i = facet_angle j /\ 0 < facets i < PI / 2)
    /\ forall o, oo = Some o ->
         0 <= o_refl o /\ 0 <= o_trans o /\ o_refl o + o_trans o <= 1
         /\ (p_gonio P = None -> p_detection P = PI / 2 -> p_nparticle P = None -> p_muabs P = 0 ->
             let k i := incident (at_fraction tmin tmax (d_l2 D i)) (at_fraction pmin pmax (d_l3 D i)) in
             o_refl o + o_trans o
             = 1 - total (map (fun i => if Rltb 0 (vz (mirror (facet_normal (facets i)) (k i)))
                    then 1 - pf1 (p_nmedium P) (p_nfront P) (p_nsample P) (acos (Rabs (dot (k i) (facet_normal (facets i))))) else 0) (seq 0 ntraj)) / INR ntraj).
Proof.
  intros Hn Ht Hm Ha Hr0 Hu Huf Hv Hns Hb Hr. unfold rough_film_run.
  destruct (rough_launch_ok nev ntraj spot tmin tmax pmin pmax (p_nmedium P) (p_nsample P) r (d_l0 D) (d_l1 D) (d_l2 D) (d_l3 D) uf Hns Hr0 Huf)
    as (starts & facets & E0 & Hl & Hfac & Hst).
  rewrite E0. cbn [bind]. clear E0. set (k := fun i : nat => incident (uniform tmin tmax (d_l2 D i)) (uniform pmin pmax (d_l3 D i))).
  set (kr := fun i => dot (k i) (facet_normal (facets i))). set (kf := fun i => vz (mirror (facet_normal (facets i)) (k i))).
  change (map (fun i => dot (incident (uniform tmin tmax (d_l2 D i)) (uniform pmin pmax (d_l3 D i))) (facet_normal (facets i))) (seq 0 ntraj)) with (map kr (seq 0 ntraj)).
  change (map (fun i => vz (mirror (facet_normal (facets i)) (incident (uniform tmin tmax (d_l2 D i)) (uniform pmin pmax (d_l3 D i))))) (seq 0 ntraj)) with (map kf (seq 0 ntraj)).
  destruct (trajectories_ok nev ntraj mu (p_muabs P) D starts (fun _ _ k => unit k) Hn Hm Hu Ha Hl) as (T & -> & HT).
  { intros j s Hj. destruct (Hst j s Hj) as (k' & -> & Hk). eexists _, k'. split; [reflexivity|].
    cbv zeta in Hk. match type of Hk with context [rough_enter1 ?a ?b ?c ?d] => destruct (rough_enter1 a b c d) as [[a0 b0] c0] eqn:Er end. cbn [fst] in Hk. subst a0.
    eapply rough_refracted_unit; [|exact Er]. rewrite Rabs_right by lra. lra. }
  cbn [bind]. set (P' := with_rough P (map kr (seq 0 ntraj)) (map kf (seq 0 ntraj))).
  destruct (film_never_raises 21 (d_rang D) (d_rstep D) P' false 0 (map T (seq 0 ntraj)) Hb) as [oo E].
  { unfold P'. cbn. split; discriminate. } { exact Hr. }
  exists oo, facets. split; [exact E|]. split.
  { intros i Hi. destruct (Hfac i Hi) as (j & Pj & Ej & Hj). exists j. split; [|split; [|exact Hj]].
    - eapply picks_ext; [|exact Pj]. intros m Hm'. now apply facet_law_eq.
    - rewrite Ej. apply facet_angle_at. exact (proj1 Pj). }
  intros o ->.
  assert (Hv' : valid_params P' ntraj) by (apply with_rough_valid; [exact Hv| |]; now rewrite map_length, seq_length).
  assert (Hfr : forall i, (i < ntraj)%nat -> col_ok 1 (T i)) by
    (intros i Hi; destruct (HT i Hi) as (p & k' & _ & _ & _ & _ & _ & Hc & _); exact Hc).
  assert (E' : calc_refl_trans 22 (d_rang D) (fun _ _ _ => 0) P' false 0 (map T (seq 0 ntraj)) = Ok (Some o)) by
    (rewrite <- E; apply no_rerun_draws; exact Hr).
  destruct (fractions_hold 22 (d_rang D) (fun _ _ _ => 0) P' 0 ntraj T o Ht Hv' (or_introl Hb) Ha
     ltac:(intros; lra) Hfr E') as (A1 & A2 & A3 & _).
  split; [exact A1|]. split; [exact A2|]. split; [exact A3|].
  intros Hgo Hfd Hnp Hz. cbv zeta.
  assert (Etir : choose_n_tir P' = p_nsample P).
  { unfold P', choose_n_tir, with_rough. cbn [p_nparticle p_nmatrix p_nsample]. rewrite Hnp. apply Rabs_right. lra. }
  rewrite (rough_balance 21 (d_rang D) (d_rstep D) P' 0 ntraj T o kr kf Ht (valid_good _ _ Hv') Hgo Hfd); try assumption; try reflexivity.
  - rewrite Etir. reflexivity.
  - rewrite Etir. unfold P'. cbn. rewrite Rabs_right by lra. lra.
  - intros i Hi. destruct (HT i Hi) as (p & k' & Uk & Hw & _ & _ & Hd & _ & Hfl). split; [exact Hw|]. split; [apply Hfl; exact Hz|]. now apply Hd.
Qed.
