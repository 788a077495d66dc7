(** Model of structcol/structure.py.  No proofs in this file.

    Arrays of [qd] are handled one element at a time.  The dimension check of
    [ureg.check] is not modelled. *)
From Verif Require Export Num M_refractive_index.
Open Scope R_scope.

(** structcol/structure.py:77-79. *)
Definition py_lambda1 (phi : R) : R := (1 + 2 * phi) ^ 2 / (1 - phi) ^ 4.
Definition py_lambda2 (phi : R) : R := - (1 + phi / 2) ^ 2 / (1 - phi) ^ 4.

(** structcol/structure.py:80-88, the transform [c]. *)
Definition py_c (qd phi : R) : R :=
  -24 * phi * (py_lambda1 phi * (sin qd - qd * cos qd) / qd ^ 3
               - 6 * phi * py_lambda2 phi
                 * (qd ^ 2 * cos qd - 2 * qd * sin qd - 2 * cos qd + 2) / qd ^ 4
               - (phi * py_lambda1 phi / 2)
                 * (qd ^ 4 * cos qd - 4 * qd ^ 3 * sin qd - 12 * qd ^ 2 * cos qd
                    + 24 * qd * sin qd + 24 * cos qd - 24) / qd ^ 6).

(** structcol/structure.py:36-90 [factor_py]; NaN where a denominator of the
    formula is 0 ([qd = 0], where the code divides 0 by 0; [phi = 1]). *)
Definition factor_py (qd phi : R) : num :=
  if Reqb qd 0 || Reqb phi 1 then None else ndiv 1 (1 - py_c qd phi).

(** structcol/structure.py:136-137 [factor_para], [phi > 0]; NaN at 0/0. *)
Definition para_r (qd phi sigma : R) : R :=
  exp (- (qd * Rpower phi (- (1 / 3)) * sigma) ^ 2 / 2).
Definition factor_para (qd phi sigma : R) : num :=
  let r := para_r qd phi sigma in
  ndiv (1 - r ^ 2) (1 + r ^ 2 - 2 * r * cos (qd * Rpower phi (- (1 / 3)))).

(** structcol/structure.py:332-335 [factor_data]: linear interpolation, and
    outside the table the fill value [s_data[0]] (on both sides).  The table is
    a list of (qd, s) pairs with increasing qd; IndexError if it is empty. *)
Definition factor_data (t : list (R * R)) (qd : R) : result R :=
  match t with
  | [] => Err IndexError
  | (_, s0) :: _ =>
      Ok (match interp_linear t qd with Some v => v | None => s0 end) end.

(** structcol/structure.py:498-508. *)
Definition c0 (eta : R) : R := - (1 + 2 * eta) ^ 2 / (1 - eta) ^ 4.
Definition c1 (eta : R) : R := 6 * eta * (1 + eta * (1 / 2)) ^ 2 / (1 - eta) ^ 4.
Definition c3 (eta : R) : R := eta * (1 / 2) * c0 eta.
Definition cc (r eta : R) : R :=
  if Rltb 1 r then 0 else c0 eta + c1 eta * r + c3 eta * r ^ 3.

(** ** Polydisperse structure factor. *)

(** One species: number concentration, mean diameter, polydispersity index. *)
Record species := mkSp { sp_c : R; sp_d : R; sp_pdi : R }.

(** structcol/structure.py:193-197: the polydispersity indices are raised to at
    least 1e-5 before anything is computed. *)
Definition pdi_floor (p : R) : R := if Rltb p 1e-5 then 1e-5 else p.
Definition floor_sp (s : species) : species := mkSp (sp_c s) (sp_d s) (pdi_floor (sp_pdi s)).

(** structcol/structure.py:199-208. *)
Definition Dsigma (s : species) : R := sp_pdi s ^ 2.
Definition sp_t (s : species) : R := 1 / Dsigma s - 1.
Definition sp_t2 (s : species) : R := Dsigma s + 1.
Definition sp_t3 (s : species) : R := (Dsigma s + 1) * (2 * Dsigma s + 1).

(** structcol/structure.py:187-191 [tm], used with [m = 0] and [m = 1]:
    the product of [m+t, ..., 1+t] over [(t+1)**m]. *)
Definition tm_prod (m : nat) (t : R) : R :=
  fold_right Rmult 1 (map (fun k => INR k + t) (seq 1 m)) / (t + 1) ^ m.

(** A complex number to a real power, principal branch ([np.power]); the base
    has positive real part in all uses. *)
Definition Cpow_r (z : C) (e : R) : C :=
  let m := Rpower (Cmod z) e in
  let a := atan (snd z / fst z) in (m * cos (e * a), m * sin (e * a)).

(** structcol/structure.py:176-185 [fm]. *)
Definition fm (x : C) (t tm m : R) : C :=
  Cmult (RtoC tm) (Cpow_r (Cplus (RtoC 1) (Cdiv x (RtoC (t + 1)))) (- (t + 1 + m))).

(** structcol/structure.py:210-234, the number density; one or two species,
    not all of them with concentration 0. *)
Definition rho_of (phi : R) (s : species) : R :=
  6 * phi / (sp_t3 s * PI * sp_d s ^ 3).
Definition poly_rho (phi : R) (l : list species) : R :=
  match l with
  | [s] => rho_of phi s
  | [s0; s1] =>
      if Reqb (sp_c s0) 0 then rho_of phi s1
      else if Reqb (sp_c s1) 0 then rho_of phi s0
      else
        let phi_ratio := 1 / (sp_c s0 / sp_c s1 * (sp_d s0 / sp_d s1) ^ 3
                              * sp_t3 s0 / sp_t3 s1 + 1) in
        let phi_tau1 := phi_ratio * phi in
        let phi_tau0 := phi - phi_tau1 in
        rho_of phi_tau0 s0 + rho_of phi_tau1 s1
  | _ => 0 end.

Definition Csum (l : list C) : C := fold_right Cplus (RtoC 0) l.

(** structcol/structure.py:237 [sigma0] and 254 [zeta2]. *)
Definition poly_sigma0 (phi rho : R) : R := Rpower (6 * phi / (PI * rho)) (1 / 3).
Definition poly_zeta2 (phi rho : R) : R := rho * poly_sigma0 phi rho ^ 2.

Section Poly.
Variables (q phi : R) (l : list species).
Let rho := poly_rho phi l.
Let zeta2 := poly_zeta2 phi rho.
Let Delta := 1 - phi.
Let s : C := (0, q).                       (* line 251: s = 1j*q *)
Local Open Scope C_scope.

(** structcol/structure.py:252-261. *)
Definition sp_x (k : species) : C := s * sp_d k.
Definition sp_f0 (k : species) : C := fm (sp_x k) (sp_t k) (tm_prod 0 (sp_t k)) 0.
Definition sp_f1 (k : species) : C := fm (sp_x k) (sp_t k) (tm_prod 1 (sp_t k)) 1.
Definition sp_f2 (k : species) : C := fm (sp_x k) (sp_t k) (sp_t2 k) 2.
Definition sp_f0i (k : species) : C := fm (- sp_x k) (sp_t k) (tm_prod 0 (sp_t k)) 0.
Definition sp_f1i (k : species) : C := fm (- sp_x k) (sp_t k) (tm_prod 1 (sp_t k)) 1.
Definition sp_f2i (k : species) : C := fm (- sp_x k) (sp_t k) (sp_t2 k) 2.

(** structcol/structure.py:264-267. *)
Definition sp_fa (k : species) : C :=
  1 / (sp_x k * sp_x k * sp_x k) * (1 - sp_x k / 2 - sp_f0 k - sp_x k / 2 * sp_f1 k).
Definition sp_fb (k : species) : C :=
  1 / (sp_x k * sp_x k * sp_x k)
  * (1 - sp_x k / 2 * sp_t2 k - sp_f1 k - sp_x k / 2 * sp_f2 k).
Definition sp_fc (k : species) : C := 1 / (sp_x k * sp_x k) * (1 - sp_x k - sp_f0 k).
Definition sp_fd (k : species) : C := 1 / (sp_x k * sp_x k) * (1 - sp_x k * sp_t2 k - sp_f1 k).

(** structcol/structure.py:269-271. *)
Definition Ialpha1 : C :=
  24 / (s * s * s) * Csum (map (fun k =>
     sp_c k * rho * (- (1 / 2) * (1 - sp_f0 k) + sp_x k / 4 * (1 + sp_f1 k))) l).
Definition Ialpha2 : C :=
  24 / (s * s * s) * Csum (map (fun k =>
     sp_c k * rho * (- (sp_d k / 2) * (1 - sp_f1 k)
                     + s * (sp_d k * sp_d k) / 4 * (sp_t2 k + sp_f2 k))) l).

(** structcol/structure.py:273-275. *)
Definition Iw1 : C := 2 * PI * rho / (Delta * (s * s * s)) * (Ialpha1 + s / 2 * Ialpha2).
Definition Iw2 : C :=
  PI * rho / (Delta * (s * s)) * (1 + PI * zeta2 / (Delta * s)) * Ialpha1
  + PI * PI * zeta2 * rho / (2 * (Delta * Delta) * (s * s)) * Ialpha2.

(** structcol/structure.py:277-283. *)
Definition F11 : C := Csum (map (fun k =>
  sp_c k * (2 * PI * rho * (sp_d k * sp_d k * sp_d k) / Delta) * sp_fa k) l).
Definition F12 : C := Csum (map (fun k =>
  sp_c k / sp_d k * ((PI / Delta) * (PI / Delta) * rho * zeta2
                       * (sp_d k * sp_d k * sp_d k * sp_d k) * sp_fa k
                     + PI * rho * (sp_d k * sp_d k * sp_d k) / Delta * sp_fc k)) l).
Definition F21 : C := Csum (map (fun k =>
  sp_c k * sp_d k * (2 * PI * rho * (sp_d k * sp_d k * sp_d k) / Delta) * sp_fb k) l).
Definition F22 : C := Csum (map (fun k =>
  sp_c k * ((PI / Delta) * (PI / Delta) * rho * zeta2
              * (sp_d k * sp_d k * sp_d k * sp_d k) * sp_fb k
            + PI * rho * (sp_d k * sp_d k * sp_d k) / Delta * sp_fd k)) l).

(** structcol/structure.py:285-293. *)
Definition FF11 : C := 1 - F11.
Definition FF12 : C := - F12.
Definition FF21 : C := - F21.
Definition FF22 : C := 1 - F22.
Definition FFdet : C := FF11 * FF22 - FF12 * FF21.
Definition G11 : C := FF22 / FFdet.
Definition G12 : C := - FF12 / FFdet.
Definition G21 : C := - FF21 / FFdet.
Definition G22 : C := FF11 / FFdet.

(** structcol/structure.py:295-298. *)
Definition two_s : C := 2 / s.
Definition I0 : C :=
  - (9 / 2) * (two_s * two_s * two_s * two_s * two_s * two_s)
  * Csum (map (fun k =>
     sp_c k * (rho * rho) * (1 - 1 / 2 * (sp_f0i k + sp_f0 k)
        + sp_x k / 2 * (sp_f1i k - sp_f1 k)
        - (s * s * (sp_d k * sp_d k)) / 8 * (sp_f2i k + sp_f2 k + 2 * sp_t2 k))) l).

(** structcol/structure.py:300-305. *)
Definition poly_h2 : R :=
  fst (Iw1 * G11 * Ialpha1 / I0 + Iw1 * G12 * Ialpha2 / I0
       + Iw2 * G21 * Ialpha1 / I0 + Iw2 * G22 * Ialpha2 / I0).
End Poly.

(** structcol/structure.py:199-308, from the raised polydispersity indices on,
    and 307-308, one [q].  Values where the code divides by zero (q = 0,
    phi = 1, a vanishing determinant or normalisation) are outside the model. *)
Definition factor_poly_w (q phi : R) (l : list species) : R :=
  let SM := 1 - 2 * poly_h2 q phi l in if Rltb SM 0 then 0 else SM.

(** structcol/structure.py:140-311 [factor_poly]. *)
Definition factor_poly (q phi : R) (l : list species) : R :=
  factor_poly_w q phi (map floor_sp l).
