(** Properties of the electric fields of trajectories: C104-C109.  The vocabulary
    is in Spec_fields.v, the code's model in M_fields.v. *)
From Coq Require Import Lra Lia.
From Verif Require Import Num Spec L_num Spec_fields M_fields L_fields.
From Coquelicot Require Import Complex.
Open Scope R_scope.

(** C104.  Fields at launch: unit length, no z component, the same before and
    after entering; along x if polarised, equal intensities along x and y if
    not; real if coherent. *)
Theorem C104_initial_fields : forall coherent polarized nevents ux uy,
  exists f, init_fields coherent polarized (S nevents) ux uy = Ok (Some (f :: f :: repeat fzero nevents))
    /\ strength f = 1 /\ fz f = RtoC 0
    /\ (polarized = true -> fy f = RtoC 0)
    /\ (polarized = false -> Cmod (fx f) = Cmod (fy f))
    /\ (coherent = true -> snd (fx f) = 0 /\ snd (fy f) = 0 /\ 0 < fst (fx f))
    /\ (coherent = false -> polarized = true -> fx f = (cos (2 * PI * ux), sin (2 * PI * ux))).
Proof. exact init_fields_spec. Qed.
Print Assumptions C104_initial_fields.

(** C105.  With normally incident light the field of every event is
    perpendicular to the direction of propagation at that event, whatever the
    amplitude matrix, the angles and the steps. *)
Theorem C105_fields_transverse : forall amp n_sample wavelen trs fss angs i t rest ks,
  nth_error trs i = Some t -> along_z (ft_fields t) ->
  scatter (ez :: rest) (ft_angles t) = Ok ks ->
  calc_fields amp n_sample wavelen false trs = Ok (fss, angs) ->
  forall e, transverse (nth (S e) (nth i fss []) fzero) (nth e ks vzero).
Proof.
  intros amp n lam trs fss angs i t rest ks Hi Hz Hs H e.
  eapply column_transverse; [exact Hz|eapply calc_fields_column; eassumption|exact Hs].
Qed.
Print Assumptions C105_fields_transverse.

(** C106.  Fields come out with unit length; a field can vanish only where the
    amplitude matrix kills it: with non-zero direct amplitudes S1, S2 none
    does. *)
Theorem C106_unit_or_zero : forall amp n_sample wavelen use_tir trs fss angs i e,
  calc_fields amp n_sample wavelen use_tir trs = Ok (fss, angs) ->
  strength (nth e (nth i fss []) fzero) = 1 \/ nth e (nth i fss []) fzero = fzero.
Proof. exact unit_or_zero. Qed.
Print Assumptions C106_unit_or_zero.

Theorem C106_unit : forall amp n_sample wavelen trs fss angs i t,
  nth_error trs i = Some t -> along_z (ft_fields t) ->
  length (ft_steps t) = pred (length (ft_fields t)) ->
  calc_fields amp n_sample wavelen false trs = Ok (fss, angs) ->
  nth 0 (ft_fields t) fzero <> fzero -> nth 1 (ft_fields t) fzero <> fzero ->
  (forall a, In a (ft_angles t) -> let '(S1, S2, S3, S4) := amp (fst a) (snd a) in
                                   S1 <> RtoC 0 /\ S2 <> RtoC 0) ->
  length (nth i fss []) = length (ft_fields t)
  /\ forall e, (e < length (ft_fields t))%nat -> strength (nth e (nth i fss []) fzero) = 1.
Proof. exact all_unit. Qed.
Print Assumptions C106_unit.

(** C107.  The field after e+1 scattering events should be the product of the
    amplitude matrices applied to the incident field, turned like the direction.
    True where S4 vanishes, false in general: for every matrix (a b; b a) with
    a, b non-zero and a <> 1 (what Mie theory gives at azimuth 45 degrees) the
    polarisation after a single event is wrong. *)
Theorem C107_amplitude_partial : forall amp n_sample wavelen trs fss angs i t,
  nth_error trs i = Some t -> along_z (ft_fields t) ->
  length (ft_steps t) = pred (length (ft_fields t)) ->
  calc_fields amp n_sample wavelen false trs = Ok (fss, angs) ->
  (forall a, In a (ft_angles t) -> let '(S1, S2, S3, S4) := amp (fst a) (snd a) in S4 = RtoC 0) ->
  forall e, (S (S e) < length (ft_fields t))%nat ->
  let f0 := nth 0 (ft_fields t) fzero in
  let j := jones_all (map (fun a => amp (fst a) (snd a)) (firstn (S e) (ft_angles t))) (fx f0, fy f0) in
  exists c, c <> RtoC 0 /\
    nth (S (S e)) (nth i fss []) fzero
    = fmul c (turn_field (firstn (S e) (ft_angles t)) (fst j, snd j, RtoC 0)).
Proof. exact amplitude_partial. Qed.
Print Assumptions C107_amplitude_partial.

Theorem C107_amplitude_refuted : forall (a b : C) n_sample wavelen s0 s1,
  a <> RtoC 0 -> b <> RtoC 0 -> a <> RtoC 1 ->
  let x : field := (RtoC 1, RtoC 0, RtoC 0) in
  exists f0 f1 f2 angs,
    calc_fields (fun _ _ => (a, a, b, b)) n_sample wavelen false
      [mk_ft [(0, 0)] [s0; s1] [ez; ez] [x; x; fzero] []] = Ok ([[f0; f1; f2]], angs)
    /\ ~ parallel f2 (a, b, RtoC 0).
Proof. exact amplitude_refuted. Qed.
Print Assumptions C107_amplitude_refuted.

(** C108.  Propagation changes a field by a phase proportional to the path.
    The factor is the square of the wave number, not the wave number: the
    phase is right only where k^2 L and k L agree modulo 2 pi. *)
Theorem C108_phase : forall amp n_sample wavelen t fs fs0 angs angs0,
  along_z (ft_fields t) -> length (ft_steps t) = pred (length (ft_fields t)) ->
  calc_fields amp n_sample wavelen false [t] = Ok ([fs], angs) ->
  calc_fields amp n_sample wavelen false
    [mk_ft (ft_angles t) (map (fun _ => 0) (ft_steps t)) (ft_dirs t) (ft_fields t) (ft_tir t)] = Ok ([fs0], angs0) ->
  let k := Rabs (2 * PI * n_sample / wavelen) in
  forall e, (e < length (ft_steps t))%nat ->
    nth (S e) fs fzero = fmul (expi (k ^ 2 * total (firstn (S e) (ft_steps t)))) (nth (S e) fs0 fzero).
Proof. exact phase_law. Qed.
Print Assumptions C108_phase.

Theorem C108_phase_refuted : forall n_sample wavelen L amp,
  let k := Rabs (2 * PI * n_sample / wavelen) in
  let x : field := (RtoC 1, RtoC 0, RtoC 0) in
  exists f1 angs,
    calc_fields amp n_sample wavelen false [mk_ft [] [L] [ez] [x; x] []] = Ok ([[x; f1]], angs)
    /\ (f1 = fmul (expi (k * L)) x <-> exists m : Z, k ^ 2 * L = k * L + 2 * PI * IZR m).
Proof. exact phase_refuted. Qed.
Print Assumptions C108_phase_refuted.

(** C109.  Passing tir_refl_bool should affect the trajectories that are totally
    reflected only, and leave the caller's angles alone.  In the code, every
    row listed for any trajectory is overwritten for all of them; without any
    total reflection the first scattering angle of every trajectory is replaced
    by 0, in the caller's arrays too. *)
Theorem C109_no_tir_refuted : forall amp n_sample wavelen trs,
  (forall t, In t trs -> never_true (ft_tir t) /\ ft_angles t <> []) ->
  forall fss angs, calc_fields amp n_sample wavelen true trs = Ok (fss, angs) ->
  forall i t th ph rest, nth_error trs i = Some t -> ft_angles t = (th, ph) :: rest ->
  nth i angs [] = (1, 0, cos ph, sin ph) :: map trig rest
  /\ exists fss' angs',
       calc_fields amp n_sample wavelen false trs = Ok (fss', angs')
       /\ nth i angs' [] = (cos th, sin th, cos ph, sin ph) :: map trig rest.
Proof. exact no_tir. Qed.
Print Assumptions C109_no_tir_refuted.

Theorem C109_cross_talk_refuted : forall amp n_sample wavelen trs fss angs i j t u r,
  calc_fields amp n_sample wavelen true trs = Ok (fss, angs) ->
  nth_error trs i = Some t -> nth_error trs j = Some u ->
  never_true (ft_tir u) -> argmax_padded (ft_tir t) = S (S r) ->
  exists cp sp, nth r (nth j angs []) (0, 0, 0, 0) = (1, 0, cp, sp).
Proof. exact cross_talk. Qed.
Print Assumptions C109_cross_talk_refuted.

(** A run that meets the hypotheses of C105, C106, C107 and C108: one trajectory
    scattered once by 60 degrees at azimuth 45 degrees, x-polarised. *)
Definition run1 (steps : list R) : ftraj :=
  let x : field := (RtoC 1, RtoC 0, RtoC 0) in
  mk_ft [(PI / 3, PI / 4)] steps [ez; scatter1 ez (PI / 3) (PI / 4)] [x; x; fzero] [false; false].
Definition amp1 : R -> R -> amp4 := fun t p => (RtoC 1, RtoC (2 + cos t), RtoC 1, RtoC 0).
Example run1_meets : exists f0 f1 f2 angs,
  calc_fields amp1 (3 / 2) (1 / 2) false [run1 [1; 2]] = Ok ([[f0; f1; f2]], angs)
  /\ strength f2 = 1 /\ transverse f2 (scatter1 ez (PI / 3) (PI / 4))
  /\ exists c, c <> RtoC 0 /\
       f2 = fmul c (turn_field [(PI / 3, PI / 4)] (RtoC (2 + cos (PI / 3)), RtoC 0, RtoC 0)).
Proof.
  assert (Hz : along_z (ft_fields (run1 [1; 2]))) by (intros [|[|[|[|e]]]]; reflexivity).
  assert (E : exists f0 f1 f2 angs, calc_fields amp1 (3 / 2) (1 / 2) false [run1 [1; 2]] = Ok ([[f0; f1; f2]], angs))
    by (eexists _, _, _, _; reflexivity).
  destruct E as (f0 & f1 & f2 & angs & E). exists f0, f1, f2, angs. split; [exact E|].
  assert (Nx : (RtoC 1, RtoC 0, RtoC 0) <> fzero) by (intro K; apply (f_equal (fun f => fst (fx f))) in K; cbn in K; lra).
  split; [|split].
  - destruct (C106_unit amp1 (3 / 2) (1 / 2) [run1 [1; 2]] _ _ 0 _ eq_refl Hz eq_refl E) as [_ U].
    + exact Nx.
    + exact Nx.
    + intros a [<-|[]]. cbn [amp1]. split; intro K; injection K; [lra|]. cbn [fst]. rewrite cos_PI3. lra.
    + exact (U 2%nat ltac:(cbn; lia)).
  - exact (C105_fields_transverse amp1 (3 / 2) (1 / 2) [run1 [1; 2]] _ _ 0 _ [ez] [ez; scatter1 ez (PI / 3) (PI / 4)] eq_refl Hz eq_refl E 1%nat).
  - destruct (C107_amplitude_partial amp1 (3 / 2) (1 / 2) [run1 [1; 2]] _ _ 0 _ eq_refl Hz eq_refl E) with (e := 0%nat) as (c & Hc & Ec).
    + intros a _. reflexivity.
    + cbn. lia.
    + exists c. split; [exact Hc|]. change (nth 2 (nth 0 [[f0; f1; f2]] []) fzero) with f2 in Ec. rewrite Ec.
      f_equal. f_equal. unfold run1. cbn [ft_fields ft_angles nth map firstn jones_all amp1 jones fst snd fx fy].
      apply field_eq; unfold fx, fy, fz; cbn [fst snd]; ring.
Qed.

(** A run that meets the hypotheses of C109: the same trajectory, no total
    reflection; and a second trajectory totally reflected at its third event. *)
Example run2_meets :
  let u := mk_ft [(PI / 3, 0); (PI / 3, 0)] [1; 1; 1] [ez; ez; ez] [fzero; fzero; fzero; fzero] [false; false; false] in
  let t := mk_ft [(PI / 3, 0); (PI / 3, 0)] [1; 1; 1] [ez; ez; ez] [fzero; fzero; fzero; fzero] [false; false; true] in
  (exists fss angs, calc_fields amp1 (3 / 2) (1 / 2) true [u] = Ok (fss, angs)
     /\ nth 0 angs [] = (1, 0, cos 0, sin 0) :: [trig (PI / 3, 0)])
  /\ exists fss angs cp sp, calc_fields amp1 (3 / 2) (1 / 2) true [t; u] = Ok (fss, angs)
     /\ nth 1 (nth 1 angs []) (0, 0, 0, 0) = (1, 0, cp, sp).
Proof.
  intros u t.
  assert (Nu : never_true (ft_tir u)) by (intros [|[|[|[|j]]]]; reflexivity).
  split.
  - assert (E : exists fss angs, calc_fields amp1 (3 / 2) (1 / 2) true [u] = Ok (fss, angs)) by (eexists _, _; reflexivity).
    destruct E as (fss & angs & E). exists fss, angs. split; [exact E|].
    refine (proj1 (C109_no_tir_refuted amp1 (3 / 2) (1 / 2) [u] _ fss angs E 0 u (PI / 3) 0 [(PI / 3, 0)] eq_refl eq_refl)).
    intros v [<-|[]]. split; [exact Nu|discriminate].
  - assert (E : exists fss angs, calc_fields amp1 (3 / 2) (1 / 2) true [t; u] = Ok (fss, angs)) by (eexists _, _; reflexivity).
    destruct E as (fss & angs & E).
    destruct (C109_cross_talk_refuted _ _ _ _ _ _ 0 1 t u 1 E eq_refl eq_refl Nu eq_refl) as (cp & sp & H).
    exists fss, angs, cp, sp. split; [exact E|exact H].
Qed.
