(** Vocabulary of the statements about the electric fields of trajectories. *)
From Verif Require Export Spec Spec_polarization M_fields.
Open Scope R_scope.

(** The complex field [f] is perpendicular to the real vector [v]. *)
Definition transverse (f : field) (v : vec) : Prop :=
  Cplus (Cplus (Cmult (fx f) (RtoC (vx v))) (Cmult (fy f) (RtoC (vy v))))
        (Cmult (fz f) (RtoC (vz v))) = RtoC 0.

(** Two fields point along the same complex line (same polarisation). *)
Definition parallel (f g : field) : Prop :=
  Cmult (fx f) (fy g) = Cmult (fy f) (fx g)
  /\ Cmult (fy f) (fz g) = Cmult (fz f) (fy g)
  /\ Cmult (fz f) (fx g) = Cmult (fx f) (fz g).

(** The amplitude matrix (S2 S3; S4 S1) applied to a transverse field. *)
Definition jones (s : amp4) (e : C * C) : C * C :=
  let '(S1, S2, S3, S4) := s in
  (Cplus (Cmult S2 (fst e)) (Cmult S3 (snd e)),
   Cplus (Cmult S4 (fst e)) (Cmult S1 (snd e))).
Fixpoint jones_all (ss : list amp4) (e : C * C) : C * C :=
  match ss with [] => e | s :: t => jones_all t (jones s e) end.

(** Light travelling along +z: no z component anywhere. *)
Definition along_z (l : list field) : Prop := forall e, fz (nth e l fzero) = RtoC 0.

(** A complex field turned by the rotations of the scattering events: its real
    and imaginary parts are turned like directions are. *)
Definition re_part (f : field) : vec := (fst (fx f), fst (fy f), fst (fz f)).
Definition im_part (f : field) : vec := (snd (fx f), snd (fy f), snd (fz f)).
Definition of_parts (a b : vec) : field := ((vx a, vx b), (vy a, vy b), (vz a, vz b)).
Definition turn (angles : list (R * R)) (v : vec) : vec :=
  fold_left (fun k a => scatter1 k (fst a) (snd a)) angles v.
Definition turn_field (angles : list (R * R)) (f : field) : field :=
  of_parts (turn angles (re_part f)) (turn angles (im_part f)).
