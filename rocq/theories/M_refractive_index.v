(** Model of structcol/refractive_index.py.  No proofs in this file.

    Wavelengths are lengths in micrometres: every formula carries its units
    ([Quantity('... um^2')]), so pint's result does not depend on the unit the
    caller used.  The dimension check of [ureg.check] is not modelled.  Arrays
    of wavelengths are handled one element at a time. *)
From Coq Require Export String.
From Verif Require Export Num.
From Coquelicot Require Export Complex.
Open Scope R_scope.

(** [np.sqrt] of a float: NaN below zero. *)
Definition nsqrt (x : R) : num := if Rltb x 0 then None else Some (sqrt x).
Definition nbind (x : num) (f : R -> num) : num :=
  match x with Some a => f a | None => None end.

(** A Sellmeier term [A*w*w/(w*w - b)]; NaN at the pole (the code gives inf
    there, which is outside the model). *)
Definition sellmeier (A b w : R) : num := ndiv (A * w * w) (w * w - b).

(** structcol/refractive_index.py:68-76, 'water'. *)
Definition n_water (w : R) : num :=
  nbind (sellmeier 5.684027565e-1 5.101829712e-3 w) (fun a =>
  nbind (sellmeier 1.726177391e-1 1.821153936e-2 w) (fun b =>
  nbind (sellmeier 2.086189578e-2 2.620722293e-2 w) (fun c =>
  nbind (sellmeier 1.130748688e-1 1.069792721e1 w) (fun d =>
  nsqrt (a + b + c + d + 1))))).

(** structcol/refractive_index.py:85-86. *)
Definition n_polystyrene (w : R) : num :=
  nbind (sellmeier 1.4435 0.020216 w) (fun a => nsqrt (a + 1)).

(** structcol/refractive_index.py:93-98 ([w = 0] is outside the model:
    division by zero gives NaN here). *)
Definition n_pmma (w : R) : num :=
  nbind (ndiv 2.3678e-2 (w * w)) (fun a =>
  nbind (ndiv 4.2137e-3 (w * w * w * w)) (fun b =>
  nbind (ndiv 7.3417e-4 (w * w * w * w * w * w)) (fun c =>
  nbind (ndiv 4.5042e-5 (w * w * w * w * w * w * w * w)) (fun d =>
  nsqrt (2.1778 + 6.1209e-3 * w * w - 1.5004e-3 * w * w * w * w
         + a - b + c - d))))).

(** structcol/refractive_index.py:104-106. *)
Definition n_rutile (w : R) : num :=
  nbind (ndiv 0.2441 (w * w - 0.0803)) (fun a => nsqrt (5.913 + a)).

(** structcol/refractive_index.py:113-118. *)
Definition n_fused_silica (w : R) : num :=
  nbind (sellmeier 0.6961663 (0.0684043 ^ 2) w) (fun a =>
  nbind (sellmeier 0.4079426 (0.1162414 ^ 2) w) (fun b =>
  nbind (sellmeier 0.8974794 (9.896161 ^ 2) w) (fun c =>
  nsqrt (1 + a + b + c)))).

(** structcol/refractive_index.py:123-124. *)
Definition n_soda_lime (w : R) : num :=
  nbind (ndiv 0.003962 (w * w)) (fun a =>
  Some (1.5130 - 0.003169 * w * w + a)).

(** structcol/refractive_index.py:131-132. *)
Definition n_zirconia (w : R) : num :=
  nbind (sellmeier 3.3037 (0.1987971 ^ 2) w) (fun a => nsqrt (1 + a)).

(** structcol/refractive_index.py:138-139. *)
Definition n_ethanol (w : R) : num :=
  nbind (ndiv 0.00306 (w ^ 2)) (fun a =>
  nbind (ndiv 0.00002 (w ^ 4)) (fun b => Some (1.35265 + a + b))).

(** structcol/refractive_index.py:143, [1.0*w/w]. *)
Definition n_vacuum (w : R) : num := ndiv (1 * w) w.

(** structcol/refractive_index.py:151-153. *)
Definition n_brookite (w : R) : num :=
  nbind (sellmeier 2.1036 (0.287 ^ 2) w) (fun a =>
  nsqrt (2.9858 + a - 0.18 * w * w + 1)).

(** structcol/refractive_index.py:157-158. *)
Definition n_anatase (w : R) : num :=
  nbind (ndiv 4.1155e-2 (w * w)) (fun a =>
  nbind (ndiv 2.1798e-3 (w * w * w * w)) (fun b => Some (2.1526 + a + b))).

(** structcol/refractive_index.py:60-159 [n_dict]. *)
Open Scope string_scope.
Definition n_dict : list (string * (R -> num)) :=
  [ ("water", n_water); ("polystyrene", n_polystyrene); ("pmma", n_pmma);
    ("rutile", n_rutile); ("fused silica", n_fused_silica);
    ("soda lime glass", n_soda_lime); ("zirconia", n_zirconia);
    ("ethanol", n_ethanol); ("vacuum", n_vacuum); ("brookite", n_brookite);
    ("anatase", n_anatase) ].

Fixpoint dict_get {A} (k : string) (d : list (string * A)) : result A :=
  match d with
  | [] => Err KeyError
  | (k', v) :: t => if String.eqb k k' then Ok v else dict_get k t end.
Close Scope string_scope.

(** [interp1d(x, y, kind='linear')], piecewise-linear on a table with strictly
    increasing abscissae (the property's domain: interp1d itself sorts an
    unsorted table), evaluated inside the table.  [lo] and [hi] are the end
    points; outside, [interp1d] raises ValueError ([bounds_error] default) or
    returns the fill value. *)
Fixpoint interp_seg (x0 y0 : R) (rest : list (R * R)) (x : R) : R :=
  match rest with
  | [] => y0
  | (x1, y1) :: t =>
      if Rleb x x1 then y0 + (y1 - y0) / (x1 - x0) * (x - x0)
      else interp_seg x1 y1 t x end.

Definition table_last (t : list (R * R)) : R := fst (last t (0, 0)).

Definition interp_linear (t : list (R * R)) (x : R) : option R :=
  match t with
  | [] => None
  | (x0, y0) :: rest =>
      if Rltb x x0 || Rltb (table_last t) x then None
      else Some (interp_seg x0 y0 rest x) end.

(** [np.round(x, 2)]: to the nearest hundredth, ties to even. *)
Definition round_half_even (x : R) : Z :=
  let f := floorZ x in
  let d := x - IZR f in
  if Rltb d (1 / 2) then f
  else if Rltb (1 / 2) d then (f + 1)%Z
  else if Z.even f then f else (f + 1)%Z.
Definition round2 (x : R) : R := IZR (round_half_even (100 * x)) / 100.

(** structcol/refractive_index.py:161-215 [n], kind='linear', real index data.
    [unit] is the size in micrometres of the unit of [wavelength_data];
    the wavelength is converted to it and rounded to two decimals (line 204).
    The warning of lines 208-210 has no effect on the result. *)
Definition n_material (material : string) (wavelen : R)
  (index_data : option (list R)) (wavelength_data : option (list R * R))
  : result num :=
  if String.eqb material "data" then
    match index_data, wavelength_data with
    | Some ys, Some (xs, unit) =>
        if Nat.eqb (length ys) (length xs) then
          match interp_linear (combine xs ys) (round2 (wavelen / unit)) with
          | Some v => Ok (Some v)
          | None => Err ValueError end
        else Err ValueError
    | _, _ => Err KeyError end
  else bind (dict_get material n_dict) (fun f => Ok (f wavelen)).

(** structcol/refractive_index.py:221-229. *)
Definition n_silica_colloidal (w : R) : R := 1.40.
Definition n_keratin (w : R) : R := 1.532.
Definition n_ptbma (w : R) : R := 1.46.

(** ** Cargille oils.  The tables are transcribed as integers: c in 1e-7, d as
    printed times 10 (so in 1e-9 with the factor 1e-8), e as printed (1e-16). *)

(** structcol/refractive_index.py:273-276. *)
Definition oil_c_AAA : list Z := [
  12955420; 13003100; 13050780; 13098450; 13146140; 13193790; 13241460;
  13289140; 13336850; 13384510; 13432190; 13479860; 13527530; 13575220;
  13622900; 13670580; 13718240; 13765920; 13813600; 13861270]%Z.

(** structcol/refractive_index.py:278-281. *)
Definition oil_d_AAA : list Z := [
  1488282; 1575959; 1663635; 1753521; 1841197; 1930347; 2019496; 2106435;
  2195585; 2282524; 2370200; 2458613; 2548500; 2634702; 2722378; 2810791;
  2900677; 2988353; 3076030; 3164442]%Z.

(** structcol/refractive_index.py:283-287. *)
Definition oil_e_AAA : list Z := [
  205000000000; 185000000000; 156000000000; 129000000000; 101000000000;
  74200000000; 49400000000; 22200000000; (-2470000000); (-32100000000);
  (-54400000000); (-81600000000); (-106000000000); (-133000000000);
  (-158000000000); (-183000000000); (-215000000000); (-240000000000);
  (-265000000000); (-289000000000)]%Z.

(** structcol/refractive_index.py:291-296. *)
Definition oil_c_AA : list Z := [
  13878680; 13898820; 13918890; 13939010; 13959120; 13979260; 13999370;
  14019490; 14039580; 14059700; 14079810; 14099920; 14120040; 14140140;
  14160280; 14180370; 14200490; 14220580; 14240700; 14260820; 14280930;
  14301050; 14321160; 14341280; 14361400; 14381490; 14401610; 14421730;
  14441840; 14461950]%Z.

(** structcol/refractive_index.py:298-303. *)
Definition oil_d_AA : list Z := [
  4341806; 4329281; 4319703; 4306441; 4294653; 4283601; 4270339; 4259288;
  4249710; 4235711; 4224659; 4212871; 4199609; 4189294; 4174559; 4165717;
  4153929; 4142140; 4129615; 4120037; 4105302; 4095724; 4083935; 4069937;
  4058148; 4047834; 4036045; 4024257; 4011732; 4001417]%Z.

(** structcol/refractive_index.py:305-310. *)
Definition oil_e_AA : list Z := [
  (-447000000000); (-418000000000); (-393000000000); (-366000000000);
  (-339000000000); (-314000000000); (-277000000000); (-257000000000);
  (-227000000000); (-203000000000); (-178000000000); (-151000000000);
  (-116000000000); (-86500000000); (-66700000000); (-37100000000);
  (-12400000000); 14800000000; 44500000000; 71700000000; 96400000000;
  124000000000; 151000000000; 180000000000; 208000000000; 235000000000;
  260000000000; 287000000000; 319000000000; 344000000000]%Z.

(** structcol/refractive_index.py:314-329. *)
Definition oil_c_A : list Z := [
  14479240; 14496970; 14514660; 14532390; 14550100; 14567810; 14585550;
  14603220; 14620940; 14638660; 14656340; 14674070; 14691780; 14709510;
  14727230; 14744920; 14762650; 14780350; 14798080; 14815750; 14833470;
  14851180; 14868890; 14886590; 14904330; 14922050; 14939760; 14957450;
  14975160; 14992880; 15010590; 15028320; 15046000; 15063720; 15081420;
  15099160; 15116860; 15134560; 15152310; 15170000; 15187690; 15205400;
  15223120; 15240800; 15258560; 15276260; 15293970; 15311680; 15329410;
  15347120; 15364800; 15382510; 15400230; 15417940; 15435660; 15453380;
  15466690; 15483510; 15500340; 15517170; 15533950; 15550810; 15567630;
  15584430; 15601230; 15618070; 15634880; 15651750; 15668520; 15685360;
  15702180; 15719000; 15735820; 15752620; 15769440; 15786280; 15803080;
  15819920; 15836720; 15853520; 15870380; 15887170; 15904020; 15920810;
  15937640; 15954450; 15971270; 15988090; 16004930; 16021740; 16038570]%Z.

(** structcol/refractive_index.py:331-346. *)
Definition oil_d_A : list Z := [
  4074357; 4139930; 4206240; 4269602; 4335912; 4401485; 4465584; 4533367;
  4599677; 4664513; 4733033; 4798606; 4861968; 4929752; 4992377; 5059424;
  5126470; 5191306; 5258353; 5325399; 5387288; 5454334; 5519170; 5586953;
  5651790; 5717362; 5782198; 5849981; 5914818; 5980390; 6046700; 6110800;
  6180056; 6244892; 6309728; 6376038; 6442348; 6507183; 6571283; 6637592;
  6703165; 6770948; 6837258; 6902831; 6968404; 7032503; 7099550; 7164385;
  7229958; 7296268; 7363314; 7429624; 7493723; 7560033; 7625606; 7691915;
  7854005; 7922525; 7995466; 8062512; 8134716; 8205446; 8274703; 8343223;
  8415426; 8483210; 8553940; 8622460; 8694664; 8764657; 8833914; 8902434;
  8973901; 9042421; 9112414; 9183144; 9252401; 9322395; 9393125; 9462382;
  9530902; 9603842; 9671626; 9740882; 9813086; 9882342; 9951599; 10023800;
  10090850; 10160840; 10233050]%Z.

(** structcol/refractive_index.py:348-363. *)
Definition oil_e_A : list Z := [
  415000000000; 462000000000; 512000000000; 561000000000; 608000000000;
  650000000000; 705000000000; 749000000000; 796000000000; 845000000000;
  890000000000; 942000000000; 989000000000; 1040000000000; 1080000000000;
  1130000000000; 1180000000000; 1230000000000; 1270000000000; 1320000000000;
  1370000000000; 1410000000000; 1460000000000; 1510000000000; 1560000000000;
  1600000000000; 1650000000000; 1700000000000; 1750000000000; 1800000000000;
  1840000000000; 1890000000000; 1940000000000; 1990000000000; 2040000000000;
  2080000000000; 2130000000000; 2180000000000; 2230000000000; 2270000000000;
  2320000000000; 2370000000000; 2420000000000; 2450000000000; 2510000000000;
  2560000000000; 2610000000000; 2660000000000; 2700000000000; 2750000000000;
  2800000000000; 2840000000000; 2890000000000; 2940000000000; 2990000000000;
  3030000000000; 3270000000000; 3410000000000; 3550000000000; 3700000000000;
  3830000000000; 3970000000000; 4110000000000; 4260000000000; 4400000000000;
  4540000000000; 4680000000000; 4820000000000; 4960000000000; 5100000000000;
  5240000000000; 5380000000000; 5530000000000; 5660000000000; 5800000000000;
  5950000000000; 6080000000000; 6230000000000; 6360000000000; 6510000000000;
  6650000000000; 6790000000000; 6930000000000; 7070000000000; 7210000000000;
  7350000000000; 7490000000000; 7640000000000; 7780000000000; 7920000000000;
  8050000000000]%Z.

(** structcol/refractive_index.py:367-372. *)
Definition oil_c_B : list Z := [
  16055350; 16072220; 16089030; 16105860; 16122670; 16139490; 16156300;
  16173150; 16172980; 16191310; 16209600; 16227940; 16246230; 16264560;
  16282830; 16301150; 16319440; 16337760; 16356060; 16374370; 16392670;
  16410970; 16429280; 16447590; 16465850; 16484200; 16502490; 16520810;
  16539130; 16557430]%Z.

(** structcol/refractive_index.py:374-379. *)
Definition oil_d_B : list Z := [
  10303040; 10370090; 10438610; 10509340; 10581540; 10650800; 10720050;
  10790780; 11926150; 11939410; 11954150; 11962250; 11974040; 11986570;
  11999830; 12011620; 12023410; 12032980; 12045510; 12059510; 12071300;
  12083820; 12095610; 12105190; 12120660; 12129500; 12141290; 12155290;
  12167080; 12178130]%Z.

(** structcol/refractive_index.py:381-386. *)
Definition oil_e_B : list Z := [
  8190000000000; 8340000000000; 8480000000000; 8620000000000; 8760000000000;
  8900000000000; 9040000000000; 9180000000000; 7660000000000; 7820000000000;
  7990000000000; 8150000000000; 8320000000000; 8480000000000; 8640000000000;
  8800000000000; 8970000000000; 9130000000000; 9290000000000; 9450000000000;
  9610000000000; 9780000000000; 9950000000000; 10100000000000;
  10300000000000; 10400000000000; 10600000000000; 10800000000000;
  10900000000000; 11100000000000]%Z.

(** structcol/refractive_index.py:390-395. *)
Definition oil_c_E : list Z := [
  14782500; 14826070; 14869510; 14912950; 14956390; 14999860; 15043280;
  15086730; 15130200; 15173630; 15217110; 15260550; 15314580; 15382480;
  15450390; 15491920; 15533950; 15576302; 15618070; 15660110; 15702180;
  15744220; 15786280; 15828340; 15870380; 15912410; 15954450; 15996510;
  16038570]%Z.

(** structcol/refractive_index.py:397-402. *)
Definition oil_d_E : list Z := [
  5754201; 5835246; 5920712; 6004704; 6086486; 6171215; 6252996; 6336989;
  6419508; 6503500; 6586018; 6667800; 6900620; 7325002; 7750857; 7960838;
  8134716; 8308595; 8483210; 8657825; 8833914; 9008529; 9183144; 9358497;
  9530902; 9705517; 9882342; 10056220; 10231570]%Z.

(** structcol/refractive_index.py:404-409. *)
Definition oil_e_E : list Z := [
  6230000000000; 6740000000000; 7240000000000; 7740000000000; 8240000000000;
  8740000000000; 9240000000000; 9750000000000; 10200000000000;
  10700000000000; 11200000000000; 11800000000000; 10500000000000;
  6820000000000; 3180000000000; 3490000000000; 3830000000000; 4180000000000;
  4540000000000; 4890000000000; 5240000000000; 5590000000000; 5950000000000;
  6300000000000; 6650000000000; 7000000000000; 7350000000000; 7710000000000;
  8060000000000]%Z.

(** structcol/refractive_index.py:413-413. *)
Definition oil_c_acrylic : list Z := [
  14784190]%Z.

(** structcol/refractive_index.py:415-415. *)
Definition oil_d_acrylic : list Z := [
  4631821]%Z.

(** structcol/refractive_index.py:417-417. *)
Definition oil_e_acrylic : list Z := [
  (-86373380000)]%Z.

(** structcol/refractive_index.py:262-264, the dictionaries [cs], [ds], [es];
    one entry per series: the three coefficient tables. *)
Open Scope string_scope.
Definition oil_tables : list (string * (list Z * list Z * list Z)) :=
  [ ("AAA", (oil_c_AAA, oil_d_AAA, oil_e_AAA));
    ("AA", (oil_c_AA, oil_d_AA, oil_e_AA));
    ("A", (oil_c_A, oil_d_A, oil_e_A));
    ("B", (oil_c_B, oil_d_B, oil_e_B));
    ("E", (oil_c_E, oil_d_E, oil_e_E));
    ("acrylic", (oil_c_acrylic, oil_d_acrylic, oil_e_acrylic)) ].
Close Scope string_scope.

(** Python's [a[i]]: negative indices count from the end, IndexError outside. *)
Definition py_index {A} (l : list A) (i : Z) : result A :=
  let n := Z.of_nat (length l) in
  let j := if (i <? 0)%Z then (i + n)%Z else i in
  if ((j <? 0) || (n <=? j))%Z then Err IndexError
  else match nth_error l (Z.to_nat j) with
       | Some a => Ok a | None => Err IndexError end.

(** structcol/refractive_index.py:419-430 [n_cargille].  Line 420 computes
    c + d/w^2; line 421 starts with a unary plus and is a separate statement,
    so its value is discarded (only its IndexError can matter). *)
Definition n_cargille (i : Z) (series : string) (w : R) : result R :=
  let body :=
    bind (dict_get series oil_tables) (fun t =>
    let '(cs, ds, es) := t in
    bind (py_index cs i) (fun c =>
    bind (py_index ds i) (fun d =>
    let n := IZR c / 10 ^ 7 + (IZR d / 10 ^ 9) / w ^ 2 in
    bind (py_index es i) (fun _ => Ok n)))) in
  match body with
  | Ok n => Ok n
  | Err IndexError => Err ValueError
  | Err KeyError => Err ValueError
  | Err e => Err e end.

(** ** Effective index. *)

Definition Csq (z : C) : C := Cmult z z.

(** [np.sqrt] of a complex number: the principal branch. *)
Definition Csqrt (z : C) : C :=
  let m := Cmod z in
  (sqrt ((m + fst z) / 2),
   (if Rltb (snd z) 0 then - sqrt ((m - fst z) / 2)
    else sqrt ((m - fst z) / 2))).

(** structcol/refractive_index.py:482-486, the Maxwell-Garnett formula for one
    inclusion.  Real indices are complex numbers with imaginary part 0; for
    positive real indices and fractions in [0,1] the radicand is positive and
    the complex root is the real one (otherwise a float radicand below 0 gives
    NaN in the code: outside the model). *)
Definition mg_formula (ni nm : C) (phi : R) : C :=
  let e := Cminus (Csq ni) (Csq nm) in
  let s := Cplus (Cmult (RtoC 2) (Csq nm)) (Csq ni) in
  Cmult nm (Csqrt (Cdiv (Cplus s (Cmult (RtoC (2 * phi)) e))
                        (Cminus s (Cmult (RtoC phi) e)))).

(** structcol/refractive_index.py:503-513: indices and volume fractions with the
    matrix appended; the matrix fraction is one minus the sum of the others. *)
Definition bg_indices (np : list C) (nm : C) : list C := np ++ [nm].
Definition bg_fractions (vf : list R) : list R := vf ++ [1 - Rsum vf].

(** structcol/refractive_index.py:515-521 [sum_bg] ([a+b*1j] is [z]). *)
Definition sum_bg (vf : list R) (ns : list C) (z : C) : C :=
  fold_right Cplus (RtoC 0)
    (map2 (fun f n => Cdiv (Cmult (RtoC f) (Cminus (Csq n) (Csq z)))
                           (Cplus (Csq n) (Cmult (RtoC 2) (Csq z)))) vf ns).

(** structcol/refractive_index.py:435-536 [n_eff].  Scalars are one-element
    lists ([np.array([x]).flatten()]).  [fsolve] stands for scipy's root
    finder started at 1.5 (lines 526-528): any function from the equation to
    a complex number; it need not return a root.
    Maxwell-Garnett: more than one element makes [if neff.imag == 0] (line 488)
    ambiguous, a ValueError as well; so do shapes that do not broadcast.  Empty
    arrays are outside the model. *)
Definition n_eff (fsolve : (C -> C) -> C) (maxwell_garnett : bool)
  (n_particle n_matrix : list C) (volume_fraction : list R) : result C :=
  if maxwell_garnett then
    if negb (Nat.eqb (length n_particle) (length n_matrix)) then Err ValueError
    else match n_particle, n_matrix, volume_fraction with
         | [ni], [nm], [phi] =>
             let neff := mg_formula ni nm phi in
             if Reqb (snd neff) 0 then Ok (RtoC (fst neff)) else Ok neff
         | _, _, _ => Err ValueError end
  else
    if negb (Nat.eqb (length n_particle) (length volume_fraction)) then Err ValueError
    else match n_matrix with
         | [nm] =>
             let z := fsolve (sum_bg (bg_fractions volume_fraction)
                                     (bg_indices n_particle nm)) in
             if Reqb (snd z) 0 then Ok (RtoC (fst z))
             else if Rltb (snd z) 0 then Err ValueError
             else Ok z
         | _ => Err ValueError end.
