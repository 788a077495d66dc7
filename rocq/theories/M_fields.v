(** Model of the electric fields in structcol/montecarlo.py: their
    initialisation (lines 799-822) and [Trajectory.calc_fields] (239-411).  No
    proofs here.

    A (3, nevents+1, ntraj) array is a list, over trajectories, of columns of
    complex vectors.  The Mie amplitude matrix is an argument. *)
From Verif Require Export Num Spec M_init M_montecarlo M_polarization.
From Coquelicot Require Export Complex.
Open Scope R_scope.

(** [np.exp(1j*x)]. *)
Definition expi (x : R) : C := (cos x, sin x).

(** structcol/__init__.py:73-97 [normalize] on complex components.  With
    return_nan=True a zero vector gives NaN; with return_nan=False zero
    magnitudes are replaced by 1 (the test [magnitude.all() == 0] is true iff
    some magnitude is zero, so elements do not influence each other). *)
Definition fmag (f : field) : R :=
  sqrt (Cmod (fx f) ^ 2 + Cmod (fy f) ^ 2 + Cmod (fz f) ^ 2).
Definition fdiv (f : field) (m : R) : field :=
  (Cdiv (fx f) (RtoC m), Cdiv (fy f) (RtoC m), Cdiv (fz f) (RtoC m)).
Definition fnormalize (f : field) : option field :=
  if Reqb (fmag f) 0 then None else Some (fdiv f (fmag f)).
Definition fnormalize0 (f : field) : field :=
  if Reqb (fmag f) 0 then fdiv f 1 else fdiv f (fmag f).

(** structcol/montecarlo.py:799-822, one trajectory: the column of
    [nevents + 1] fields (a column of fewer than two entries raises IndexError
    in the code; nevents >= 1 here).  [ux], [uy] are the two uniform draws. *)
Definition init_fields (coherent polarized : bool) (nevents : nat) (ux uy : R)
  : result (option (list field)) :=
  let phase_x := if coherent then 0 else ux * 2 * PI in
  let phase_y := if coherent then 0 else uy * 2 * PI in
  let f0 : field := (expi phase_x, if polarized then RtoC 0 else expi phase_y, RtoC 0) in
  match nevents with
  | O => Err IndexError
  | S n => Ok (match fnormalize f0 with
               | None => None
               | Some f => let g : field := (fx f, fy f, RtoC 0) in
                           Some (g :: g :: repeat fzero n) end)
  end.

(** Amplitude matrix (S1, S2, S3, S4) of one event. *)
Definition amp4 : Type := (C * C * C * C)%type.

(** structcol/montecarlo.py:343-344, one event; note that the second line uses
    the [Ex] the first one has just overwritten. *)
Definition jones_step (s : amp4) (e : C * C) : C * C :=
  let '(S1, S2, S3, S4) := s in
  let Ex := Cplus (Cmult S2 (fst e)) (Cmult S3 (snd e)) in
  let Ey := Cplus (Cmult S4 Ex) (Cmult S1 (snd e)) in
  (Ex, Ey).

(** structcol/montecarlo.py:342-350, one trajectory: [tail] is the column from
    event 2 on; its x and y components are overwritten, z kept.  IndexError if
    there are fewer angles than events. *)
Fixpoint jones_loop (amps : list amp4) (e : C * C) (tail : list field) {struct tail} : result (list field) :=
  match tail with
  | [] => Ok []
  | f :: t =>
      match amps with
      | [] => Err IndexError
      | s :: ss =>
          let e' := jones_step s e in
          bind (jones_loop ss e' t) (fun l => Ok (((fst e', snd e'), fz f) :: l))
      end
  end.

(** The sines and cosines of one event: (costheta, sintheta, cosphi, sinphi). *)
Definition ang4 : Type := (R * R * R * R)%type.
Definition trig (a : R * R) : ang4 := (cos (fst a), sin (fst a), cos (snd a), sin (snd a)).

(** structcol/montecarlo.py:380-385, the rotation of one field vector. *)
Definition rot_field (a : ang4) (f : field) : field :=
  let '(ct, st, cp, sp) := a in
  let u := Cplus (Cmult (fx f) (RtoC ct)) (Cmult (fz f) (RtoC st)) in
  (Cminus (Cmult u (RtoC cp)) (Cmult (fy f) (RtoC sp)),
   Cplus (Cmult u (RtoC sp)) (Cmult (fy f) (RtoC cp)),
   Cplus (Copp (Cmult (fx f) (RtoC st))) (Cmult (fz f) (RtoC ct))).

(** structcol/montecarlo.py:375-386, one trajectory, [tail] from event 2 on:
    pass n rotates every event from n on by the angles n-2. *)
Fixpoint rotate_loop (angs : list ang4) (tail : list field) : result (list field) :=
  match angs with
  | [] => match tail with [] => Ok [] | _ => Err IndexError end
  | a :: angs' =>
      match map (rot_field a) tail with
      | [] => Ok []
      | f :: rest => bind (rotate_loop angs' rest) (fun l => Ok (f :: l))
      end
  end.

(** structcol/montecarlo.py:394-401: the phase of event [e] is |k| times |k|
    times the path so far ([k = 2 pi n_sample / wavelen], line 305, from the
    bare magnitudes; n_sample real or complex, [k] here is its modulus). *)
Definition field_k (n_sample wavelen : R) : R := Rabs (2 * PI * n_sample / wavelen).
Definition phase_factors (k : R) (steps : list R) : list C :=
  map (fun c => expi (k * (k * c))) (cumsum steps).
Definition fmul (u : C) (f : field) : field :=
  (Cmult (fx f) u, Cmult (fy f) u, Cmult (fz f) u).

(** Lines 328-350 and 375-410 for one trajectory whose fields before the call
    are [col]; [amps] the amplitude matrices, [angs] the (possibly overwritten)
    sines and cosines.  As many steps as events; the ValueError of other shapes
    is not modelled. *)
Definition fields_column (k : R) (amps : list amp4) (angs : list ang4) (steps : list R)
  (col : list field) : result (list field) :=
  match col with
  | f0 :: f1 :: tail =>
      bind (jones_loop amps (fx f0, fy f0) tail) (fun t1 =>
      bind (rotate_loop angs t1) (fun t2 =>
      Ok (map fnormalize0 (f0 :: map2 fmul (phase_factors k steps) (f1 :: t2)))))
  | f0 :: [] => Ok (map fnormalize0 [f0])
  | [] => Ok []
  end.

(** What calc_fields knows of one trajectory: sampled angles (theta, phi),
    steps, directions after scatter, fields before the call, and its column of
    tir_refl_bool if that argument is given. *)
Record ftraj := mk_ft {
  ft_angles : list (R * R); ft_steps : list R; ft_dirs : list vec; ft_fields : list field;
  ft_tir : list bool }.

(** structcol/montecarlo.py:355-369.  The polar angle the trajectory gets
    ([theta_1 + theta_tir]), and the row it is written to. *)
Definition select_z (l : list R) (ev : Z) : R :=
  if (ev <=? 0)%Z then 0 else nth (Z.to_nat (ev - 1)) l 0.
Definition tir_angle (t : ftraj) : R :=
  let ev := Z.of_nat (argmax_padded (ft_tir t)) in
  let theta_1 := select_z (map fst (ft_angles t)) (ev - 2) in
  let kz_tir := select_z (map vz (ft_dirs t)) ev in
  theta_1 + 2 * (PI / 2 - acos kz_tir).
Definition tir_row (t : ftraj) : nat := (argmax_padded (ft_tir t) - 2)%nat.

(** [costheta[tir_ind_theta, :] = costheta_tir]: every row listed, for every
    trajectory. *)
Definition overwrite_rows (rows : list nat) (th : R) (angs : list ang4) : list ang4 :=
  map (fun ia : nat * ang4 =>
         let '(i, (ct, st, cp, sp)) := ia in
         if existsb (Nat.eqb i) rows then (cos th, sin th, cp, sp) else (ct, st, cp, sp))
      (combine (seq 0 (length angs)) angs).

Fixpoint mapM {A B} (f : A -> result B) (l : list A) : result (list B) :=
  match l with
  | [] => Ok []
  | a :: t => bind (f a) (fun b => bind (mapM f t) (fun bs => Ok (b :: bs))) end.

(** structcol/montecarlo.py:239-411 [calc_fields]: the new fields of all
    trajectories.  [amp theta phi] is pymie's amplitude matrix; [use_tir] says
    whether tir_refl_bool is given.  The (overwritten) sines and cosines are
    also what the caller's arrays hold afterwards: second result. *)
Definition calc_fields (amp : R -> R -> amp4) (n_sample wavelen : R) (use_tir : bool)
  (trs : list ftraj) : result (list (list field) * list (list ang4)) :=
  let rows := map tir_row trs in
  let angs t := map trig (ft_angles t) in
  let angs' t := if use_tir then overwrite_rows rows (tir_angle t) (angs t) else angs t in
  if use_tir && existsb (fun t => existsb (fun r => Nat.leb (length (ft_angles t)) r) rows) trs
  then Err IndexError
  else
    bind (mapM (fun t =>
            fields_column (field_k n_sample wavelen)
              (map (fun a => amp (fst a) (snd a)) (ft_angles t)) (angs' t) (ft_steps t) (ft_fields t))
          trs)
      (fun fs => Ok (fs, map angs' trs)).
