(** Model of structcol/model.py.  No proofs in this file. *)
From Verif Require Export Num.
Open Scope R_scope.

(** structcol/model.py:1205-1209, [np.abs(num/den)**2].  For positive indices
    and angles in [-pi/2, pi/2] the denominator vanishes only at grazing
    incidence without index contrast (cos = 0, root = 0).  The float
    np.cos(np.pi/2) is 6e-17 > 0, so the code's quotient is -1 or 1 there and
    its square 1: the model uses that value.  Angles below -pi/2, which the
    code accepts too, are outside the model's domain. *)
Definition abs_ratio_sq (a b : R) : R :=
  if Reqb b 0 then 1 else Rabs (a / b) ^ 2.

(** structcol/model.py:1183-1209, one angle, after the range check: the pair
    (r_par, r_perp).  Real indices; complex ones (which numpy compares
    lexicographically in [ms < 1]) are outside the model. *)
Definition fresnel_refl1 (n1 n2 theta : R) : R * R :=
  let ms := n2 / n1 in
  let tir := Rltb ms 1 && Rleb (asin ms) theta in
  if tir then (1, 1)
  else
    let root := sqrt (Rabs (n2 ^ 2 - (n1 * sin theta) ^ 2)) in
    let costheta := cos theta in
    (abs_ratio_sq (n1 * root - n2 ^ 2 * costheta) (n1 * root + n2 ^ 2 * costheta),
     abs_ratio_sq (n1 * costheta - root) (n1 * costheta + root)).

(** structcol/model.py:1147-1211 [fresnel_reflection] on an array of angles;
    ValueError when any angle exceeds pi/2 (lines 1178-1181).  NaN angles are
    not modelled. *)
Definition fresnel_reflection (n1 n2 : R) (theta : list R)
  : result (list R * list R) :=
  if existsb (fun t => Rltb (PI / 2) t) theta then Err ValueError
  else let r := map (fresnel_refl1 n1 n2) theta in
       Ok (map fst r, map snd r).

(** structcol/model.py:1213-1238 [fresnel_transmission]. *)
Definition fresnel_transmission (n1 n2 : R) (theta : list R)
  : result (list R * list R) :=
  bind (fresnel_reflection n1 n2 theta) (fun r =>
    Ok (map (fun x => 1 - x) (fst r), map (fun x => 1 - x) (snd r))).

(** One angle of the above. *)
Definition fresnel_trans1 (n1 n2 theta : R) : R * R :=
  let r := fresnel_refl1 n1 n2 theta in (1 - fst r, 1 - snd r).
