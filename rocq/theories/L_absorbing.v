(** Proofs about the absorbing branch of [reflection] (C118). *)
From Coq Require Import Lra Lia Psatz.
From Verif Require Import Num Spec Spec_scatter Spec_optics Spec_reflection Spec_absorbing L_num M_model
  M_structure M_reflection M_absorbing L_fresnel L_fresnel_cplx L_montecarlo2 L_slots L_reflection L_reflection2
  L_reflection4 L_sizes.
From Coquelicot Require Import Complex.
Open Scope R_scope.

Definition Tp (casin : C -> C) (n : C) (m t : R) : R := 1 - nan_to_num (fst (fresnel_cplx1 casin n (RtoC m) (PI - t))).
Definition Ts (casin : C -> C) (n : C) (m t : R) : R := 1 - nan_to_num (snd (fresnel_cplx1 casin n (RtoC m) (PI - t))).

Lemma T_abs casin n m t : 0 < m -> 0 < fst n -> 0 < snd n -> PI / 2 <= t <= PI ->
  fresnel_cplx1 casin n (RtoC m) (PI - t) = (Some (1 - Tp casin n m t), Some (1 - Ts casin n m t))
  /\ 0 <= Tp casin n m t <= 1 /\ 0 <= Ts casin n m t <= 1.
Proof.
  intros Hm Ha Hb Ht. destruct n as [a b]. cbn [fst snd] in *.
  destruct (exit_fractions casin m a b (PI - t) Hm Ha Hb ltac:(lra)) as (rp & rs & E & P & Q).
  unfold Tp, Ts. rewrite E. cbn. split; [f_equal; f_equal; lra|lra].
Qed.

Definition detp_abs casin n (integ : integrator) parts A (P S : R -> R) : R :=
  weighted parts (fun d => snd (fst (integ (map (fun t => P t * Tp casin n (a_nmedium A) t) (detected_angles A))
     (map (fun t => S t * Ts casin n (a_nmedium A) t) (detected_angles A)) d (detected_angles A) (a_pmin A) (a_pmax A)))).
Definition dets_abs casin n (integ : integrator) parts A (P S : R -> R) : R :=
  weighted parts (fun d => snd (integ (map (fun t => P t * Tp casin n (a_nmedium A) t) (detected_angles A))
     (map (fun t => S t * Ts casin n (a_nmedium A) t) (detected_angles A)) d (detected_angles A) (a_pmin A) (a_pmax A))).

Lemma sums_weighted integ parts par perp angles lo hi :
  sum_unpol integ parts par perp angles lo hi = weighted parts (fun d => fst (fst (integ par perp d angles lo hi)))
  /\ sum_par integ parts par perp angles lo hi = weighted parts (fun d => snd (fst (integ par perp d angles lo hi)))
  /\ sum_perp integ parts par perp angles lo hi = weighted parts (fun d => snd (integ par perp d angles lo hi)).
Proof.
  unfold weighted, Rsum, sum_unpol, sum_par, sum_perp. induction parts as [|[c d] parts (H1 & H2 & H3)].
  - repeat split.
  - cbn [fold_right map fst snd]. rewrite H1, H2, H3. repeat split; ring.
Qed.

Lemma map2_map {X} (f : R -> R -> R) (g h : X -> R) l : map2 f (map g l) (map h l) = map (fun t => f (g t) (h t)) l.
Proof. induction l; cbn; congruence. Qed.

Lemma absorbing_law casin integ n parts A dcs (P S : R -> R) : 0 < fst n -> 0 < snd n -> geometry_ok A ->
  gives A dcs P S ->
  exists rp rs, fresnel_cplx casin (RtoC (a_nmedium A)) n [a_inc A] = Ok ([Some rp], [Some rs])
    /\ 0 <= rp /\ (snd n <= fst n -> rp <= 1) /\ 0 <= rs <= 1
    /\ reflection_absorbing casin integ n parts A dcs
       = Ok (let sc := total_abs integ parts A P S in
             let g := ndiv (cos_abs integ parts A P S) sc in
             let cext := sc + a_cabs A in
             let factor := match a_thickness A with None => Some 1
                           | Some L => ndiv ((1 - exp (- a_rho A * cext * L)) * sc) cext end in
             let refl t r d := nbind factor (fun f => nbind (ndiv (t * d) cext) (fun a => Some (a * f + r))) in
             let p := refl (1 - rp) rp (detp_abs casin n integ parts A P S) in
             let s := refl (1 - rs) rs (dets_abs casin n integ parts A P S) in
             mk_rout (nmap2 (fun a b => (a + b) / 2) p s) p s g
               (nbind g (fun g => nbind (ndiv 1 (1 - g)) (fun a => nbind (ndiv a (a_rho A)) (fun b => ndiv b sc))))).
Proof.
  intros Ha Hb G Hg. pose proof G as (Gm & _ & _ & _ & _ & _ & _ & _ & _ & Ginc & _). pose proof PI_RGT_0 as HP.
  destruct n as [a b]. cbn [fst snd] in Ha, Hb.
  destruct (entrance_fractions casin (a_nmedium A) a b (a_inc A) Gm Ha Hb ltac:(lra)) as (rp & rs & E & F1 & F2 & F3).
  exists rp, rs.
  assert (E1 : fresnel_cplx casin (RtoC (a_nmedium A)) (a, b) [a_inc A] = Ok ([Some rp], [Some rs])).
  { unfold fresnel_cplx. cbn [existsb]. rewrite (proj2 (Rltb_false _ _)) by lra. cbn [orb map]. rewrite E. reflexivity. }
  split; [exact E1|]. split; [exact F1|]. split; [exact F2|]. split; [exact F3|].
  unfold reflection_absorbing, fresnel_trans_cplx. rewrite E1.
  cbn [bind fst snd map nmap option_map].
  set (D := detected_angles A). set (TT := total_angles A).
  assert (E2 : fresnel_cplx casin (a, b) (RtoC (a_nmedium A)) (map (fun t => PI - t) D)
    = Ok (map (fun t => Some (1 - Tp casin (a, b) (a_nmedium A) t)) D,
          map (fun t => Some (1 - Ts casin (a, b) (a_nmedium A) t)) D)).
  { unfold fresnel_cplx. rewrite existsb_past.
    - rewrite !map_map. f_equal. f_equal; apply map_ext_in; intros t Ht;
        destruct (T_abs casin (a, b) (a_nmedium A) t Gm Ha Hb (detected_in A t G Ht)) as (-> & _); reflexivity.
    - intros t Ht. apply in_map_iff in Ht as (u & <- & Hu). pose proof (detected_in A u G Hu). lra. }
  rewrite E2. cbn [bind fst snd].
  rewrite (all_angles_ext dcs (fun t => Ok (Some (P t), Some (S t))) D) by (intros t Ht; apply Hg; now left).
  rewrite (all_angles_ext dcs (fun t => Ok (Some (P t), Some (S t))) TT) by (intros t Ht; apply Hg; now right).
  rewrite !all_angles_ok. cbn [bind].
  rewrite !map_map. cbn [nmap option_map fst snd].
  rewrite !get_all_somes.
  change (get_all [Some (1 - rp)]) with (Some [1 - rp]). change (get_all [Some (1 - rs)]) with (Some [1 - rs]).
  change (get_all [Some rp]) with (Some [rp]). change (get_all [Some rs]) with (Some [rs]).
  cbn [nth]. f_equal. unfold absorbing_core. fold D TT.
  rewrite !map2_map.
  rewrite !(proj1 (sums_weighted _ _ _ _ _ _ _)), (proj1 (proj2 (sums_weighted _ _ _ _ _ _ _))),
    (proj2 (proj2 (sums_weighted _ _ _ _ _ _ _))).
  assert (Q1 : map (fun t => P t * (1 - (1 - Tp casin (a, b) (a_nmedium A) t))) D = map (fun t => P t * Tp casin (a, b) (a_nmedium A) t) D)
    by (apply map_ext; intros; ring).
  assert (Q2 : map (fun t => S t * (1 - (1 - Ts casin (a, b) (a_nmedium A) t))) D = map (fun t => S t * Ts casin (a, b) (a_nmedium A) t) D)
    by (apply map_ext; intros; ring).
  rewrite Q1, Q2. reflexivity.
Qed.
