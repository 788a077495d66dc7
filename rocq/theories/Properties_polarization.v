(** Properties of the coherent reflectance: C59, C60, C89-C91.  The vocabulary is
    in Spec_polarization.v, the code's model in M_polarization.v. *)
From Coq Require Import Lra Lia.
From Verif Require Import Num Spec Spec_polarization M_polarization L_num L_polarization.
Open Scope R_scope.

(** C59.  [coh], [inc]: the two returned reflectances. *)
Theorem C59_coherent_bound : forall n nev F I r,
  field_run n nev F I r ->
  exists tx ty tz coh inc, phase_fields n F I r = Ok (tx, ty, tz, coh, inc)
    /\ (forall c, In c components ->
          c (tx, ty, tz) = over_reflected n I (fun i => sqrt (INR n * r i) * c (out_field F I i)))
    /\ INR n * coh = strength (tx, ty, tz)
    /\ inc = over_reflected n I (fun i => r i * strength (out_field F I i))
    /\ 0 <= coh <= INR (reflected n I) * inc.
Proof. exact phase_fields_spec. Qed.
Print Assumptions C59_coherent_bound.

(** The bound is reached when all trajectories carry the same field, and a
    single trajectory has nothing to interfere with. *)
Theorem C59_bound_reached : forall n nev F I r f,
  field_run n nev F I r ->
  (forall i, (i < n)%nat -> I i <> 0%nat /\ r i = / INR n /\ out_field F I i = f) ->
  exists tx ty tz coh inc, phase_fields n F I r = Ok (tx, ty, tz, coh, inc)
    /\ coh = INR n * inc /\ inc = strength f.
Proof.
  intros n nev F I r f Hr Hs.
  destruct (phase_fields_spec n nev F I r Hr) as (tx & ty & tz & coh & inc & H & Hc & Hcoh & Hinc & _).
  exists tx, ty, tz, coh, inc. split; [exact H|].
  assert (Hn : 0 < INR n) by (apply lt_0_INR, (proj1 Hr)).
  assert (K : forall g x, (forall i, (i < n)%nat -> g i = x) -> over_reflected n I g = INR n * x).
  { intros g x Hg. unfold over_reflected.
    rewrite (map_ext_in _ (fun _ => x)).
    - clear. induction (seq 0 n) as [|a l IH] eqn:E in n |- *.
      + assert (length (seq 0 n) = 0%nat) by now rewrite E. rewrite seq_length in H. subst n. cbn. ring.
      + assert (L : length (seq 0 n) = S (length l)) by now rewrite E. rewrite seq_length in L. subst n.
        rewrite S_INR. cbn [map total].
        assert (T : forall (l : list nat), total (map (fun _ => x) l) = INR (length l) * x).
        { clear. induction l as [|b l IH]; [cbn; ring|]. cbn [map total length]. rewrite IH, S_INR. ring. }
        rewrite T. ring.
    - intros i Hi. apply in_seq in Hi. destruct (Hs i ltac:(lia)) as (H1 & _).
      apply Nat.eqb_neq in H1. rewrite H1. apply Hg. lia. }
  assert (Hinc' : inc = strength f).
  { rewrite Hinc, (K _ (/ INR n * strength f)); [field; lra|].
    intros i Hi. destruct (Hs i Hi) as (_ & -> & ->). reflexivity. }
  split; [|exact Hinc'].
  assert (Hcomp : forall c, In c components -> c (tx, ty, tz) = INR n * c f).
  { intros c Hin. rewrite (Hc c Hin). apply K. intros i Hi. destruct (Hs i Hi) as (_ & -> & ->).
    replace (INR n * / INR n) with 1 by (field; lra). rewrite sqrt_1. ring. }
  assert (Hst : strength (tx, ty, tz) = INR n ^ 2 * strength f).
  { rewrite !strength_components, <- sum_scale. apply sum_ext. intros c Hin. rewrite (Hcomp c Hin). ring. }
  rewrite Hst in Hcoh. rewrite Hinc'. apply Rmult_eq_reg_l with (INR n); [|lra]. rewrite Hcoh. ring.
Qed.
Print Assumptions C59_bound_reached.

(** With fields of unit length the incoherent reflectance is the reflectance
    summed over the reflected trajectories. *)
Theorem C59_incoherent_is_reflectance : forall n nev F I r,
  field_run n nev F I r -> (forall i, (i < n)%nat -> strength (out_field F I i) = 1) ->
  exists tx ty tz coh inc, phase_fields n F I r = Ok (tx, ty, tz, coh, inc)
    /\ inc = over_reflected n I r /\ inc <= total (map r (seq 0 n)).
Proof.
  intros n nev F I r Hr Hs.
  destruct (phase_fields_spec n nev F I r Hr) as (tx & ty & tz & coh & inc & H & _ & _ & Hinc & _).
  exists tx, ty, tz, coh, inc. split; [exact H|].
  assert (E : inc = over_reflected n I r).
  { rewrite Hinc. unfold over_reflected. f_equal. apply map_ext_in. intros i Hi. apply in_seq in Hi.
    rewrite Hs by lia. now rewrite Rmult_1_r. }
  split; [exact E|]. rewrite E. unfold over_reflected. rewrite <- !Rsum_total. apply sum_le.
  intros i Hi. apply in_seq in Hi. destruct (proj2 Hr i ltac:(lia)) as (_ & _ & H0).
  destruct (Nat.eqb (I i) 0); lra.
Qed.
Print Assumptions C59_incoherent_is_reflectance.

Theorem C59_index_error : forall n F I r,
  phase_fields n F I r = Err IndexError <-> exists i, (i < n)%nat /\ (length (tl (F i)) < I i)%nat.
Proof. exact phase_fields_error. Qed.
Print Assumptions C59_index_error.

(** C60.  [tx], [ty], [tz] is the total field. *)
Theorem C60_polarised_sum : forall n nev F I r det,
  field_run n nev F I r ->
  exists tx ty tz co cr perp coh inc,
    phase_fields n F I r = Ok (tx, ty, tz, coh, inc)
    /\ co_cross n F I r det = Ok (co, cr, perp, coh, inc)
    /\ 0 <= co /\ 0 <= cr /\ 0 <= perp
    /\ cr = Cmod ty ^ 2
    /\ co = Cmod (Cplus (Cmult (RtoC (cos det)) tx) (Cmult (RtoC (sin det)) tz)) ^ 2
    /\ co + cr + perp = strength (tx, ty, tz)
    /\ co + cr + perp = INR n * coh.
Proof. exact co_cross_sum. Qed.
Print Assumptions C60_polarised_sum.

(** C89.  False: the polarised intensities are not divided by the number of
    trajectories, the coherent reflectance returned beside them is. *)
Theorem C89_normalisation_refuted : forall n nev F I r det co cr perp coh inc,
  field_run n nev F I r -> (2 <= n)%nat ->
  co_cross n F I r det = Ok (co, cr, perp, coh, inc) -> 0 < coh ->
  co + cr + perp = INR n * coh /\ co + cr + perp <> coh.
Proof.
  intros n nev F I r det co cr perp coh inc Hr Hn H Hc.
  destruct (co_cross_sum n nev F I r det Hr) as (tx & ty & tz & co' & cr' & perp' & coh' & inc' & _ & E & _ & _ & _ & _ & _ & _ & S).
  rewrite H in E. inversion E; subst. split; [exact S|]. rewrite S. apply le_INR in Hn. cbn in Hn. nra.
Qed.
Print Assumptions C89_normalisation_refuted.

(** C90 *)
Theorem C90_common_phase : forall n nev F I r u,
  field_run n nev F I r -> Cmod u = 1 ->
  exists tx ty tz coh inc,
    phase_fields n F I r = Ok (tx, ty, tz, coh, inc)
    /\ phase_fields n (fun i => map (fturn u) (F i)) I r = Ok (Cmult u tx, Cmult u ty, Cmult u tz, coh, inc).
Proof. exact common_phase. Qed.
Print Assumptions C90_common_phase.

(** C91.  [c]: speed of light, [dwell]: time spent in a particle. *)
Theorem C91_times : forall c dwell n_sample steps idx i s k,
  0 < c -> 0 < n_sample -> length idx = length steps ->
  nth_error steps i = Some s -> nth_error idx i = Some k -> Forall (fun x => 0 < x) s ->
  exists time travel,
    nth_error (fst (calc_traj_time c dwell n_sample steps idx)) i = Some time
    /\ nth_error (snd (calc_traj_time c dwell n_sample steps idx)) i = Some travel
    /\ travel = n_sample * total (firstn k s) / c
    /\ (k = 0%nat -> time = 0) /\ ((0 < k)%nat -> s <> [] -> time = travel + dwell).
Proof. exact traj_time_spec. Qed.
Print Assumptions C91_times.

(** Two trajectories of one event, fields along x, opposite phases: they cancel
    in the coherent but not in the incoherent reflectance. *)
Definition ex_fields (i : nat) : list field :=
  [fzero; (RtoC (if Nat.eqb i 0 then 1 else -1), RtoC 0, RtoC 0)].
Example ex_field_run : field_run 2 1 ex_fields (fun _ => 1%nat) (fun _ => 1 / 2).
Proof. split; [lia|]. intros i _. split; [reflexivity|]. split; [lia|lra]. Qed.
Example ex_cancel : exists tx ty tz coh inc,
  phase_fields 2 ex_fields (fun _ => 1%nat) (fun _ => 1 / 2) = Ok (tx, ty, tz, coh, inc) /\ coh = 0 /\ inc = 1.
Proof.
  destruct (C59_coherent_bound 2 1 ex_fields (fun _ => 1%nat) (fun _ => 1 / 2) ex_field_run)
    as (tx & ty & tz & coh & inc & H & Hc & Hcoh & Hinc & _).
  exists tx, ty, tz, coh, inc. split; [exact H|].
  assert (Z : forall c, In c components -> c (tx, ty, tz) = 0).
  { intros c Hin. rewrite (Hc c Hin). unfold over_reflected. cbn [seq map Nat.eqb total].
    unfold out_field, ex_fields. cbn [nth Nat.eqb].
    destruct Hin as [<-|[<-|[<-|[<-|[<-|[<-|[]]]]]]]; cbn; ring. }
  split.
  - rewrite strength_components in Hcoh. rewrite (sum_ext _ (fun _ => 0)) in Hcoh.
    + cbn in Hcoh. lra.
    + intros c Hin. rewrite (Z c Hin). ring.
  - rewrite Hinc. unfold over_reflected. cbn [seq map Nat.eqb total].
    unfold out_field, ex_fields, strength. cbn [nth Nat.eqb]. unfold fx, fy, fz. cbn [fst snd].
    rewrite !cmod_sq. cbn. lra.
Qed.
Example ex_times : 0 < 3 /\ 0 < 3 / 2 /\ Forall (fun x => 0 < x) [1; 2].
Proof. split; [lra|]. split; [lra|]. constructor; [lra|]. constructor; [lra|constructor]. Qed.

(** The same two trajectories in phase: hypotheses of C59_bound_reached and
    C89_normalisation_refuted. *)
Definition ex_in_phase (i : nat) : list field := [fzero; (RtoC 1, RtoC 0, RtoC 0)].
Example ex_add : exists co cr perp coh inc,
  co_cross 2 ex_in_phase (fun _ => 1%nat) (fun _ => / INR 2) 0 = Ok (co, cr, perp, coh, inc)
  /\ coh = 2 /\ co + cr + perp = 4.
Proof.
  assert (Hr : field_run 2 1 ex_in_phase (fun _ => 1%nat) (fun _ => / INR 2)).
  { split; [lia|]. intros i _. split; [reflexivity|]. split; [lia|]. cbn. lra. }
  destruct (C59_bound_reached 2 1 ex_in_phase (fun _ => 1%nat) (fun _ => / INR 2) (RtoC 1, RtoC 0, RtoC 0) Hr)
    as (tx & ty & tz & coh & inc & H & Hcoh & Hinc).
  { intros i _. split; [lia|]. split; reflexivity. }
  destruct (C60_polarised_sum 2 1 ex_in_phase (fun _ => 1%nat) (fun _ => / INR 2) 0 Hr)
    as (tx' & ty' & tz' & co & cr & perp & coh' & inc' & H' & Hcc & _ & _ & _ & _ & _ & _ & S).
  rewrite H in H'. inversion H'; subst. 
  assert (E : strength (RtoC 1, RtoC 0, RtoC 0) = 1).
  { unfold strength, fx, fy, fz. cbn [fst snd]. rewrite !cmod_sq. cbn. ring. }
  rewrite E in *. cbn in S.
  do 5 eexists. split; [exact Hcc|]. cbn. split; [ring|]. rewrite S. ring.
Qed.
