(** Scattering about fixed axes and about the direction itself: the heights of
    a film run have the same law (C154). *)
From Coq Require Import Lra Lia Psatz Reals List.
From Verif Require Import Num Spec Spec_detector Spec_meta Spec_mean Spec_local M_init M_montecarlo M_detector M_simulation
  L_num L_montecarlo L_simulation L_mean L_periodic L_meta L_meta2 Properties_meta.
From Coquelicot Require Import Coquelicot.
Import ListNotations.
Open Scope R_scope.

(** The polar angle of a point of the plane. *)
Definition azim (x y : R) : R :=
  if Rle_dec 0 y then acos (x / sqrt (x ^ 2 + y ^ 2)) else - acos (x / sqrt (x ^ 2 + y ^ 2)).
Lemma azim_spec x y : x = sqrt (x ^ 2 + y ^ 2) * cos (azim x y) /\ y = sqrt (x ^ 2 + y ^ 2) * sin (azim x y).
Proof.
  set (r := sqrt (x ^ 2 + y ^ 2)). assert (Hr0 : 0 <= r) by apply sqrt_pos.
  assert (Hr2 : r ^ 2 = x ^ 2 + y ^ 2) by (unfold r; rewrite pow2_sqrt; [reflexivity|pose proof (pow2_ge_0 x); pose proof (pow2_ge_0 y); lra]).
  destruct (Req_dec r 0) as [Hz|Hz].
  - assert (x = 0 /\ y = 0) as (-> & ->).
    { rewrite Hz in Hr2. pose proof (pow2_ge_0 x). pose proof (pow2_ge_0 y). assert (x ^ 2 = 0) by lra. assert (y ^ 2 = 0) by lra. split; nra. }
    rewrite Hz. split; ring.
  - assert (Hr : 0 < r) by lra. unfold azim. fold r.
    assert (B : -1 <= x / r <= 1).
    { assert (x ^ 2 <= r ^ 2) by (pose proof (pow2_ge_0 y); lra). split.
      - apply (Rmult_le_reg_r r); [exact Hr|]. unfold Rdiv. rewrite Rmult_assoc, Rinv_l by lra. nra.
      - apply (Rmult_le_reg_r r); [exact Hr|]. unfold Rdiv. rewrite Rmult_assoc, Rinv_l by lra. nra. }
    assert (S0 : sin (acos (x / r)) = Rabs y / r).
    { rewrite sin_acos by exact B. replace (1 - (x / r)²) with ((y / r) ^ 2).
      - rewrite <- Rsqr_pow2, sqrt_Rsqr_abs. unfold Rdiv. rewrite Rabs_mult, (Rabs_pos_eq (/ r)); [reflexivity|]. apply Rlt_le, Rinv_0_lt_compat, Hr.
      - unfold Rsqr. apply (Rmult_eq_reg_r (r ^ 2)); [|nra]. replace ((y / r) ^ 2 * r ^ 2) with (y ^ 2) by (field; lra).
        replace ((1 - x / r * (x / r)) * r ^ 2) with (r ^ 2 - x ^ 2) by (field; lra). lra. }
    destruct (Rle_dec 0 y) as [Hy|Hy].
    + rewrite cos_acos, S0 by exact B. rewrite Rabs_pos_eq by exact Hy. split; field; lra.
    + rewrite cos_neg, sin_neg, cos_acos, S0 by exact B. rewrite Rabs_left by lra. split; field; lra.
Qed.

(** Heights of the directions when the azimuths are counted suitably. *)
Fixpoint canon (z0 : R) (th u : nat -> R) (j : nat) : R :=
  match j with
  | O => z0
  | S j => canon z0 th u j * cos (th j) + sqrt (1 - canon z0 th u j ^ 2) * sin (th j) * cos (2 * PI * u j)
  end.
Lemma canon_ext z0 th u u' m : (forall j, (j < m)%nat -> cos (2 * PI * u j) = cos (2 * PI * u' j)) -> canon z0 th u m = canon z0 th u' m.
Proof.
  induction m as [|m IH]; intros H; [reflexivity|]. cbn [canon]. rewrite IH by (intros; apply H; lia). now rewrite H by lia.
Qed.

(** ** The code: rotation about fixed axes *)
Fixpoint kc (t0 : R) (th p : nat -> R) (j : nat) : vec :=
  match j with
  | O => scatter1 (0, 0, 1) t0 (p O)
  | S j => scatter1 (kc t0 th p j) (th j) (p (S j))
  end.
Definition pre (t0 : R) (th p : nat -> R) (j : nat) : vec :=
  match j with
  | O => (sin t0, 0, cos t0)
  | S j => let k := kc t0 th p j in (vx k * cos (th j) + vz k * sin (th j), vy k, - vx k * sin (th j) + vz k * cos (th j))
  end.
Lemma kc_pre t0 th p j : kc t0 th p j = (vx (pre t0 th p j) * cos (p j) - vy (pre t0 th p j) * sin (p j),
    vx (pre t0 th p j) * sin (p j) + vy (pre t0 th p j) * cos (p j), vz (pre t0 th p j)).
Proof.
  destruct j; cbn [kc pre]; unfold scatter1; cbn [vx vy vz]; [|reflexivity].
  apply (f_equal2 pair); [apply (f_equal2 pair)|]; ring.
Qed.
Lemma pre_ext t0 th p p' j : (forall i, (i < j)%nat -> p i = p' i) -> pre t0 th p j = pre t0 th p' j.
Proof.
  assert (K : forall m, (forall i, (i <= m)%nat -> p i = p' i) -> kc t0 th p m = kc t0 th p' m).
  { induction m as [|m IH]; intros H; cbn [kc]; [now rewrite H by lia|]. rewrite IH by (intros; apply H; lia). now rewrite H by lia. }
  destruct j as [|j]; intros H; [reflexivity|]. unfold pre. rewrite (K j) by (intros; apply H; lia). reflexivity.
Qed.
Lemma kc_unit t0 th p j : dot (kc t0 th p j) (kc t0 th p j) = 1.
Proof.
  assert (A : forall k t q, dot k k = 1 -> dot (scatter1 k t q) (scatter1 k t q) = 1).
  { intros [[x y] z] t q. unfold dot, scatter1. cbn [vx vy vz]. pose proof (sin2_cos2 t) as S1. pose proof (sin2_cos2 q) as S2. unfold Rsqr in *. intros H.
    transitivity ((x * cos t + z * sin t) ^ 2 * (sin q * sin q + cos q * cos q) + y ^ 2 * (sin q * sin q + cos q * cos q) + (- x * sin t + z * cos t) ^ 2); [ring|].
    rewrite S2. transitivity ((x * x + z * z) * (sin t * sin t + cos t * cos t) + y * y); [ring|]. rewrite S1. lra. }
  induction j as [|j IH]; cbn [kc]; apply A; [|exact IH]. unfold dot. cbn [vx vy vz]. ring.
Qed.
Definition code_shift (t0 : R) (th p : nat -> R) (j : nat) : R :=
  1 / 2 + azim (vx (pre t0 th p j)) (vy (pre t0 th p j)) / (2 * PI).
Lemma kc_canon t0 th (s : nat -> R) (u := fun j => s j + code_shift t0 th (fun q => 2 * PI * s q) j) j :
  vz (kc t0 th (fun q => 2 * PI * s q) j) = canon (cos t0) th u j.
Proof.
  pose proof PI_RGT_0 as HPI. set (p := fun q => 2 * PI * s q). induction j as [|j IH].
  - cbn [kc canon]. unfold scatter1. cbn [vz vx]. ring.
  - cbn [canon]. rewrite <- IH. cbn [kc]. unfold scatter1 at 1. cbn [vz].
    set (k := kc t0 th p j) in *.
    enough (E : - vx k = sqrt (1 - vz k ^ 2) * cos (2 * PI * u j)) by (rewrite E; ring).
    set (q := pre t0 th p j). pose proof (kc_pre t0 th p j) as Ek. fold k q in Ek.
    pose proof (kc_unit t0 th p j) as U. fold k in U.
    destruct (azim_spec (vx q) (vy q)) as (A1 & A2). set (al := azim (vx q) (vy q)) in *.
    assert (R0 : 1 - vz k ^ 2 = vx q ^ 2 + vy q ^ 2).
    { rewrite Ek in U. unfold dot in U. cbn [vx vy vz] in U. rewrite Ek. cbn [vz]. pose proof (sin2_cos2 (p j)) as S2. unfold Rsqr in S2.
      assert (V : (vx q ^ 2 + vy q ^ 2) * (sin (p j) * sin (p j) + cos (p j) * cos (p j)) + vz q * vz q = 1) by (rewrite <- U; ring).
      rewrite S2 in V. lra. }
    rewrite R0. set (rho := sqrt (vx q ^ 2 + vy q ^ 2)) in *.
    assert (EU : 2 * PI * u j = p j + al + PI) by (unfold u, code_shift, p; fold p q al; field; lra).
    rewrite EU, neg_cos, cos_plus. rewrite Ek. cbn [vx]. rewrite A1, A2. ring.
Qed.

(** ** The documentation: rotation in the local frame *)
Fixpoint fr (f : frame) (ang : nat -> R * R) (j : nat) : frame :=
  match j with
  | O => f
  | S j => turn_frame (fr f ang j) (fst (ang j)) (snd (ang j))
  end.
Lemma local_dirs_fun f ang : forall m s, local_dirs (fr f ang s) (map ang (seq s m)) = map (fun j => fr_dir (fr f ang j)) (seq (S s) m).
Proof.
  induction m as [|m IH]; intros s; [reflexivity|]. cbn [seq map local_dirs]. rewrite (surjective_pairing (ang s)). cbv zeta.
  change (turn_frame (fr f ang s) (fst (ang s)) (snd (ang s))) with (fr f ang (S s)). now rewrite IH.
Qed.
Definition row (f : frame) : Prop := vz (fr_1 f) ^ 2 + vz (fr_2 f) ^ 2 + vz (fr_dir f) ^ 2 = 1.
Lemma turn_row f t p : row f -> row (turn_frame f t p).
Proof.
  unfold row, turn_frame, fr_1, fr_2, fr_dir, vadd, vscale. destruct f as [[[[a1 a2] a3] [[b1 b2] b3]] [[c1 c2] c3]]. cbn [fst snd vx vy vz]. intros H.
  pose proof (sin2_cos2 t) as S1. pose proof (sin2_cos2 p) as S2. unfold Rsqr in *.
  transitivity ((cos p * a3 + sin p * b3) ^ 2 * (sin t * sin t + cos t * cos t) + c3 ^ 2 * (sin t * sin t + cos t * cos t) + (- sin p * a3 + cos p * b3) ^ 2); [ring|].
  rewrite S1. transitivity ((a3 ^ 2 + b3 ^ 2) * (sin p * sin p + cos p * cos p) + c3 ^ 2); [ring|]. rewrite S2. lra.
Qed.
Lemma lab_row : row lab.
Proof. unfold row, lab, fr_1, fr_2, fr_dir. cbn. ring. Qed.
Lemma fr_row f ang j : row f -> row (fr f ang j).
Proof. intros H. induction j as [|j IH]; [exact H|]. now apply turn_row. Qed.
Lemma fr_ext f ang ang' j : (forall i, (i < j)%nat -> ang i = ang' i) -> fr f ang j = fr f ang' j.
Proof. induction j as [|j IH]; intros H; [reflexivity|]. cbn [fr]. rewrite IH by (intros; apply H; lia). now rewrite H by lia. Qed.
Definition local_shift (f : frame) (ang : nat -> R * R) (j : nat) : R :=
  - azim (vz (fr_1 (fr f ang j))) (vz (fr_2 (fr f ang j))) / (2 * PI).
Lemma fr_canon f th (s : nat -> R) (ang := fun j => (th j, 2 * PI * s j)) (u := fun j => s j + local_shift f ang j) j :
  row f -> vz (fr_dir (fr f ang j)) = canon (vz (fr_dir f)) th u j.
Proof.
  pose proof PI_RGT_0 as HPI. intros Hf. induction j as [|j IH]; [reflexivity|].
  cbn [canon]. rewrite <- IH. cbn [fr]. set (F := fr f ang j) in *. unfold ang at 1 2. cbn [fst snd].
  pose proof (fr_row f ang j Hf) as HR. fold F in HR. unfold row in HR.
  destruct (azim_spec (vz (fr_1 F)) (vz (fr_2 F))) as (A1 & A2). set (al := azim (vz (fr_1 F)) (vz (fr_2 F))) in *.
  assert (R0 : 1 - vz (fr_dir F) ^ 2 = vz (fr_1 F) ^ 2 + vz (fr_2 F) ^ 2) by lra. rewrite R0.
  set (rho := sqrt (vz (fr_1 F) ^ 2 + vz (fr_2 F) ^ 2)) in *.
  assert (EU : 2 * PI * u j = 2 * PI * s j - al) by (unfold u, local_shift; fold F al; field; lra).
  rewrite EU, cos_minus. unfold turn_frame, fr_dir at 1. cbn [snd]. unfold vadd, vscale. cbn [vz].
  rewrite A1 at 1. rewrite A2 at 1. ring.
Qed.

(** ** Trajectories *)
Fixpoint scat_dir (k0 : vec) (ang : nat -> R * R) (j : nat) : vec :=
  match j with
  | O => k0
  | S j => scatter1 (scat_dir k0 ang j) (fst (ang j)) (snd (ang j))
  end.
Lemma scatter_fun k0 ang m : scatter (k0 :: repeat vzero m) (map ang (seq 0 m)) = Ok (map (scat_dir k0 ang) (seq 0 (S m))).
Proof.
  assert (H : forall m s, scatter_loop (scat_dir k0 ang s) (repeat vzero m) (map ang (seq s m)) = Ok (map (scat_dir k0 ang) (seq (S s) m))).
  { clear m. induction m as [|m IH]; intros s; [reflexivity|]. cbn [repeat seq map scatter_loop]. rewrite (surjective_pairing (ang s)). cbv zeta.
    change (scatter1 (scat_dir k0 ang s) (fst (ang s)) (snd (ang s))) with (scat_dir k0 ang (S s)). now rewrite IH. }
  unfold scatter. change k0 with (scat_dir k0 ang 0) at 1. rewrite H. reflexivity.
Qed.
Lemma kc_scat t0 th p j : kc t0 th p j = scat_dir (kc t0 th p 0) (fun n => (th n, p (S n))) j.
Proof. induction j as [|j IH]; [reflexivity|]. cbn [scat_dir fst snd]. rewrite <- IH. reflexivity. Qed.

Lemma cumsum_heights : forall l acc, map vz (vcumsum_from acc l) = cumsum_from (vz acc) (map vz l).
Proof. induction l as [|v l IH]; intros acc; [reflexivity|]. cbn [vcumsum_from map cumsum_from]. rewrite IH. reflexivity. Qed.
Lemma move_heights p rest dirs step : map vz (move (p :: rest) dirs step) = cumsum (vz p :: map2 Rmult step (map vz dirs)).
Proof.
  unfold move. rewrite cumsum_heights. unfold cumsum. cbn [vzero vz map]. f_equal. f_equal.
  revert dirs. induction step as [|s step IH]; intros [|d dirs]; try reflexivity. cbn [map2 map]. rewrite IH. reflexivity.
Qed.
Lemma heights_same p p' rest rest' dirs dirs' step w : vz p = vz p' -> map vz dirs = map vz dirs' ->
  same_heights (mk_traj (move (p :: rest) dirs step) dirs w) (mk_traj (move (p' :: rest') dirs' step) dirs' w).
Proof. intros E E'. unfold same_heights. cbn [t_pos t_dir t_w]. rewrite !move_heights, E, E'. auto. Qed.

Definition canon_traj (nev : nat) (mu_abs : R) (z : nat -> R) (step : list R) : traj :=
  let dirs := map (fun j => (0, 0, z j)) (seq 0 nev) in
  mk_traj (move (vzero :: repeat vzero nev) dirs step) dirs (absorb mu_abs (repeat 1 nev) step).
Definition steps_of (nev : nat) (mu : R) (D : draws) (i : nat) : list R := map (fun n => step_of mu (d_u D n i)) (seq 0 nev).

Lemma run_trajs_fun nev mua ang steps (p k : nat -> vec) w : (0 < nev)%nat -> forall n i,
  run_trajs nev mua ang steps i (map (fun j => (p j, Some (k j), w)) (seq i n))
  = Ok (Some (map (fun j => let dirs := map (scat_dir (k j) (ang j)) (seq 0 nev) in
       mk_traj (move (p j :: repeat vzero nev) dirs (map (fun r => nth j r 0) steps)) dirs (absorb mua w (map (fun r => nth j r 0) steps))) (seq i n))).
Proof.
  intros Hn. induction n as [|n IH]; intros i; [reflexivity|]. cbn [seq map run_trajs]. unfold run_traj. rewrite scatter_fun. cbn [bind].
  rewrite IH. cbn [bind]. replace (S (nev - 1)) with nev by lia. reflexivity.
Qed.

Lemma Forall2_maps {A B} (Q : B -> B -> Prop) (f g : A -> B) l : (forall a, In a l -> Q (f a) (g a)) -> Forall2 Q (map f l) (map g l).
Proof. induction l as [|a l IH]; cbn; intros H; constructor; [apply H; now left|apply IH; intros; apply H; now right]. Qed.
Lemma column_steps nev ntraj mu D i : (i < ntraj)%nat ->
  map (fun r => nth i r 0) (map (map (step_of mu)) (uniform_rows nev ntraj (d_u D))) = steps_of nev mu D i.
Proof.
  intros Hi. unfold uniform_rows, steps_of. rewrite !map_map. apply map_ext. intros n. rewrite map_map.
  rewrite (nth_indep _ 0 (step_of mu (d_u D n 0%nat))) by (rewrite map_length, seq_length; exact Hi).
  rewrite (map_nth (fun x => step_of mu (d_u D n x))), seq_nth by exact Hi. reflexivity.
Qed.

Section Run.
Variables (nev ntraj : nat) (spot tmin tmax mu : R) (P : params) (D : draws) (t0 phi0 : nat -> R).
Hypothesis (Hn : (0 < nev)%nat).
Hypothesis (Hb : p_boundary P = film) (Hr : p_run P = false) (Hg : p_gonio P = None).
Hypothesis (Ht0 : forall i, (i < ntraj)%nat ->
  refraction (uniform tmin tmax (d_l2 D i)) (Rabs (p_nmedium P)) (Rabs (p_nsample P)) = Some (t0 i)).
Local Notation th i := (fun n => fst (d_ang D i n)).

Definition canon_run (u : nat -> R) : result (option outcome) :=
  calc_refl_trans 22 (d_rang D) (d_rstep D) P false 0
    (map (fun i => canon_traj nev (p_muabs P) (canon (cos (t0 i)) (th i) (fun j => u (i * nev + j)%nat)) (steps_of nev mu D i)) (seq 0 ntraj)).

Lemma canon_run_ext u u' : (forall k, (k < nev * ntraj)%nat -> cos (2 * PI * u k) = cos (2 * PI * u' k)) -> canon_run u = canon_run u'.
Proof.
  intros H. unfold canon_run. f_equal. apply map_ext_in. intros i Hi. apply in_seq in Hi. unfold canon_traj.
  assert (E : map (fun j => (0, 0, canon (cos (t0 i)) (th i) (fun j0 => u (i * nev + j0)%nat) j)) (seq 0 nev)
            = map (fun j => (0, 0, canon (cos (t0 i)) (th i) (fun j0 => u' (i * nev + j0)%nat) j)) (seq 0 nev)).
  { apply map_ext_in. intros j Hj. apply in_seq in Hj. f_equal. apply canon_ext. intros q Hq. apply H. nia. }
  cbv zeta. now rewrite E.
Qed.

Definition a_code (k : nat) (t : nat -> R) : R :=
  code_shift (t0 (k / nev)%nat) (th (k / nev)%nat) (fun q => 2 * PI * t ((k / nev) * nev + q)%nat) (k mod nev)%nat.
Definition a_local (k : nat) (t : nat -> R) : R :=
  local_shift (turn_frame lab (t0 (k / nev)%nat) (phi0 (k / nev)%nat)) (fun q => (fst (d_ang D (k / nev)%nat q), 2 * PI * t ((k / nev) * nev + q)%nat)) (k mod nev)%nat.
Lemma index_split k q : (q < k mod nev)%nat -> ((k / nev) * nev + q < k)%nat.
Proof. intros H. pose proof (Nat.div_mod k nev ltac:(lia)). nia. Qed.
Lemma causal_code : causal a_code.
Proof.
  intros k t t' H. unfold a_code, code_shift. rewrite (pre_ext _ _ _ (fun q => 2 * PI * t' (k / nev * nev + q)%nat)); [reflexivity|].
  intros q Hq. rewrite H by (now apply index_split). reflexivity.
Qed.
Lemma causal_local : causal a_local.
Proof.
  intros k t t' H. unfold a_local, local_shift.
  rewrite (fr_ext _ _ (fun q => (fst (d_ang D (k / nev)%nat q), 2 * PI * t' (k / nev * nev + q)%nat))); [reflexivity|].
  intros q Hq. rewrite H by (now apply index_split). reflexivity.
Qed.
Lemma block i j : (j < nev)%nat -> ((i * nev + j) / nev = i /\ (i * nev + j) mod nev = j)%nat.
Proof.
  intros Hj. split.
  - rewrite Nat.div_add_l by lia. rewrite Nat.div_small by exact Hj. lia.
  - rewrite Nat.add_comm, Nat.mod_add by lia. now apply Nat.mod_small.
Qed.

Lemma code_run t : film_run nev ntraj spot tmin tmax 0 (2 * PI) mu P (with_azimuths nev t D) = canon_run (shifted a_code t).
Proof.
  unfold film_run, initialize_film. cbv zeta. cbn [bind with_azimuths d_l0 d_l1 d_l2 d_l3].
  set (k := fun i => kc (t0 i) (th i) (fun q => 2 * PI * t (i * nev + q)%nat) 0).
  rewrite (map_ext_in _ (fun i => ((d_l0 D i * spot, d_l1 D i * spot, 0), Some (k i), repeat 1 nev))).
  2:{ intros i Hi. apply in_seq in Hi. f_equal. f_equal. unfold entry_dir. rewrite Ht0 by lia. f_equal.
      unfold k. cbn [kc]. unfold scatter1. cbn [vx vy vz]. unfold uniform. rewrite Nat.add_0_r.
      replace (0 + (2 * PI - 0) * t (i * nev)%nat) with (2 * PI * t (i * nev)%nat) by ring.
      apply (f_equal2 pair); [apply (f_equal2 pair)|]; ring. }
  unfold trajectories. rewrite L_montecarlo.sample_step_single by lra. cbn [bind]. cbn [d_u d_ang with_azimuths].
  rewrite (run_trajs_fun nev (p_muabs P) _ _ (fun i => (d_l0 D i * spot, d_l1 D i * spot, 0)) k) by exact Hn. cbn [bind d_rang d_rstep with_azimuths].
  unfold canon_run. apply C132_film_heights; try assumption.
  apply Forall2_maps. intros i Hi. apply in_seq in Hi. cbv zeta. rewrite column_steps by lia.
  unfold canon_traj. cbv zeta. apply heights_same; [reflexivity|]. rewrite !map_map. cbn [vz]. apply map_ext_in. intros j Hj. apply in_seq in Hj.
  unfold k. rewrite <- (kc_scat (t0 i) (th i) (fun q => 2 * PI * t (i * nev + q)%nat) j).
  rewrite (kc_canon (t0 i) (th i) (fun q => t (i * nev + q)%nat)). apply canon_ext. intros q Hq.
  unfold shifted, a_code. destruct (block i q ltac:(lia)) as (-> & ->). reflexivity.
Qed.

Lemma local_run t : local_film_run nev ntraj t0 phi0 mu P D (local_azimuths nev t D) = canon_run (shifted a_local t).
Proof.
  unfold local_film_run, canon_run. apply C132_film_heights; try assumption.
  apply Forall2_maps. intros i Hi. apply in_seq in Hi. unfold local_traj, canon_traj. cbv zeta. fold (steps_of nev mu D i).
  apply heights_same; [reflexivity|]. set (f := turn_frame lab (t0 i) (phi0 i)).
  change (local_azimuths nev t D i) with (fun n => (fst (d_ang D i n), 2 * PI * t (i * nev + n)%nat)).
  set (ang := fun n => (fst (d_ang D i n), 2 * PI * t (i * nev + n)%nat)).
  change (local_dirs f) with (local_dirs (fr f ang 0)). rewrite local_dirs_fun.
  assert (ES : fr_dir f :: map (fun j => fr_dir (fr f ang j)) (seq 1 (nev - 1)) = map (fun j => fr_dir (fr f ang j)) (seq 0 nev)).
  { destruct nev as [|n']; [lia|]. cbn [seq map Nat.sub]. rewrite Nat.sub_0_r. reflexivity. }
  rewrite ES.
  rewrite !map_map. cbn [vz]. apply map_ext_in. intros j Hj. apply in_seq in Hj.
  unfold ang. rewrite (fr_canon f (th i) (fun n => t (i * nev + n)%nat)) by apply turn_row, lab_row. fold ang.
  assert (E0 : vz (fr_dir f) = cos (t0 i)) by (unfold f, turn_frame, lab, fr_1, fr_2, fr_dir, vadd, vscale; cbn [fst snd vx vy vz]; ring).
  rewrite E0. apply canon_ext. intros q Hq.
  unfold shifted, a_local. destruct (block i q ltac:(lia)) as (-> & ->). reflexivity.
Qed.

Lemma same_law (g : result (option outcome) -> R) m :
  is_mean (nev * ntraj) (fun t => g (film_run nev ntraj spot tmin tmax 0 (2 * PI) mu P (with_azimuths nev t D))) m
  <-> is_mean (nev * ntraj) (fun t => g (local_film_run nev ntraj t0 phi0 mu P D (local_azimuths nev t D))) m.
Proof.
  assert (HD : dep (nev * ntraj) (fun u => g (canon_run u))).
  { intros t t' E. f_equal. apply canon_run_ext. intros k Hk. now rewrite E. }
  assert (HP : periodic (nev * ntraj) (fun u => g (canon_run u))).
  { intros t k Hk. f_equal. apply canon_run_ext. intros q Hq. destruct (Nat.eq_dec q k) as [->|Hne]; [|now rewrite upd_other by exact Hne].
    rewrite upd_same. replace (2 * PI * (t k + 1)) with (2 * PI * t k + 2 * PI) by ring. rewrite cos_plus, cos_2PI, sin_2PI. ring. }
  pose proof (triangular _ _ _ m HD HP causal_code) as A. pose proof (triangular _ _ _ m HD HP causal_local) as B. cbv beta in A, B.
  split; intros H.
  - apply (is_mean_ext _ (fun t => g (canon_run (shifted a_local t)))); [intros t; now rewrite local_run|]. apply B, A.
    revert H. apply is_mean_ext. intros t. now rewrite code_run.
  - apply (is_mean_ext _ (fun t => g (canon_run (shifted a_code t)))); [intros t; now rewrite code_run|]. apply A, B.
    revert H. apply is_mean_ext. intros t. now rewrite local_run.
Qed.
End Run.
