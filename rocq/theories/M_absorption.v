(** Model of structcol/model.py:935-1080 [absorption_cross_section].  No proofs
    in this file. *)
From Coq Require Import String.
From Verif Require Export Num Spec M_montecarlo M_detector M_structure M_reflection.
From Coquelicot Require Import Complex.
Open Scope R_scope.

(** pymie's size_parameter(wavelen, n, radius) for a complex index. *)
Definition csize (wavelen : R) (n : C) (radius : R) : C := Cmult (RtoC (2 * PI * radius / wavelen)) n.

(** structcol/model.py:996-1011: a range that would reach below zero starts at
    diameter 0 (not at 1e-6 as in [polydisperse_form_factor]). *)
Definition abs_grid (mean t : R) : list R :=
  let three_std := 3 * mean / sqrt (t + 1) in
  linspace (if Rltb (mean - three_std) 0 then 0 else mean - three_std) (mean + three_std) 50.

(** structcol/model.py:1007-1048 for one species.  [mie_fu radius x_scat x] is
    the absorption cross section by
    pymie's _cross_sections_complex_medium_fu with the coefficients for [m] and
    [x] (None where that is NaN). *)
Definition abs_species (factorial : R -> R) (mie_fu : R -> C -> C -> num) (wavelen : R) (n_particle n_matrix : C)
  (s : species) : num :=
  let t := pdi_t (sp_pdi s) in
  let grid := abs_grid (sp_d s) t in
  let x_scat := csize wavelen n_particle (sp_d s / 2) in
  match get_all (size_distribution factorial grid (sp_d s) t),
        get_all (map (fun d => mie_fu (d / 2) x_scat (csize wavelen n_matrix (d / 2))) grid) with
  | Some distr, Some cabs => Some (trapezoid (map2 Rmult cabs distr) grid * sp_c s)
  | _, _ => None end.
Fixpoint abs_total (f : species -> num) (l : list species) : num :=
  match l with [] => Some 0 | s :: l' => nmap2 Rplus (f s) (abs_total f l') end.

(** structcol/model.py:935-1080.  [poly] is None when concentration or pdi is
    None; [diameters] are the mean diameters; [nlayers] is the number of index
    ratios m; [mie_multi radius] is the cross section of a multilayer particle.
    A local variable that no branch assigns raises UnboundLocalError (a
    NameError). *)
Definition absorption_cross_section (factorial : R -> R) (mie_fu : R -> C -> C -> num) (mie_multi : R -> num)
  (form_type : option string) (nlayers : nat) (diameters : list R) (n_matrix x : C) (wavelen : R) (n_particle : C)
  (poly : option (list species)) : result num :=
  let cabs0 : option num := if Reqb (Rabs (snd n_matrix)) 0 then Some (Some 0) else None in
  let is s := match form_type with Some f => String.eqb f s | None => false end in
  let finish (c : option num) : result num := match c with Some v => Ok v | None => Err NameError end in
  if is "polydisperse"%string then
    match poly with
    | None => Err ValueError
    | Some l =>
        if Nat.ltb 1 nlayers then Err ValueError
        else match l with
             | [] => Err NameError
             | _ => finish (Some (abs_total (abs_species factorial mie_fu wavelen n_particle n_matrix) l)) end
    end
  else match form_type with
  | None => finish (Some (Some 0))
  | Some _ =>
      if is "sphere"%string then
        match diameters with
        | [] => Err IndexError
        | d0 :: _ =>
            let radius := d0 / 2 in
            if Nat.ltb 1 nlayers then
              finish (Some (match mie_multi radius with
                            | Some c => if Rltb c 0 then Some 0 else Some c
                            | None => None end))
            else finish (Some (mie_fu radius (csize wavelen n_particle radius) x))
        end
      else finish cabs0
  end.
