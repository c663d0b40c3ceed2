(** Real spherical harmonics, their products and gradients.
    Models /repo/jdftx/core/SphericalHarmonics.h lines 62-134 and 197 (Ylm), 206-358 (expandYlmProd) and 360-399 (YlmPrime).
    Doubles are idealised: a decimal constant is that rational number, arithmetic and square roots are exact.
    Polynomials are kept as expressions in x, y and z, and evaluated over the reals. *)
From Coq Require Import ZArith QArith Reals List Bool Qreals.
From Verif Require Import Base Vec3_Model.
Import ListNotations.

(** ** Expressions *)
Inductive expr := EV (i : nat) | EC (q : Q) | EAdd (a b : expr) | ESub (a b : expr) | EMul (a b : expr) | EOpp (a : expr).
Fixpoint ev (e : expr) (env : nat -> R) : R :=
  match e with
  | EV i => env i | EC q => Q2R q
  | EAdd a b => (ev a env + ev b env)%R | ESub a b => (ev a env - ev b env)%R | EMul a b => (ev a env * ev b env)%R | EOpp a => (- ev a env)%R
  end.
Arguments EC q%Q_scope.
Declare Scope expr_scope.
Delimit Scope expr_scope with expr.
Notation "a + b" := (EAdd a b) : expr_scope.
Notation "a - b" := (ESub a b) : expr_scope.
Notation "a * b" := (EMul a b) : expr_scope.
Notation "- a" := (EOpp a) : expr_scope.
Definition vecEnv (q : vec R) : nat -> R := fun i => match i with 0%nat => c0 q | 1%nat => c1 q | 2%nat => c2 q | _ => 0%R end.

(** ** Ylm: lines 63-122, flat index l(l+1)+m; other indices are not defined (they do not link) and are zero here, as are -1 and -2 *)
Definition ylmE (lm : Z) : expr :=
  let x := EV 0%nat in let y := EV 1%nat in let z := EV 2%nat in
  let x2 := EMul x x in let y2 := EMul y y in let z2 := EMul z z in let x2y2 := EAdd x2 y2 in
  match lm with
  | 0%Z => EC 0.28209479177387814
  | 1%Z => (EC 0.4886025119029199 * y)
  | 2%Z => (EC 0.4886025119029199 * z)
  | 3%Z => (EC 0.4886025119029199 * x)
  | 4%Z => ((EC 1.0925484305920792 * x) * y)
  | 5%Z => ((EC 1.0925484305920792 * y) * z)
  | 6%Z => (EC (-0.31539156525252005) * (((x * x) + (y * y)) - ((EC 2 * z) * z)))
  | 7%Z => ((EC 1.0925484305920792 * x) * z)
  | 8%Z => ((EC 0.5462742152960396 * (x - y)) * (x + y))
  | 9%Z => ((EC (-0.5900435899266435) * y) * ((y * y) - ((EC 3 * x) * x)))
  | 10%Z => (((EC 2.890611442640554 * x) * y) * z)
  | 11%Z => ((EC (-0.4570457994644658) * y) * (((x * x) + (y * y)) - ((EC 4 * z) * z)))
  | 12%Z => ((EC 0.3731763325901154 * z) * (((EC 2 * z) * z) - (EC 3 * ((x * x) + (y * y)))))
  | 13%Z => ((EC (-0.4570457994644658) * x) * (((x * x) + (y * y)) - ((EC 4 * z) * z)))
  | 14%Z => (((EC 1.445305721320277 * (x - y)) * (x + y)) * z)
  | 15%Z => ((EC 0.5900435899266435 * x) * ((x * x) - ((EC 3 * y) * y)))
  | 16%Z => ((((EC 2.5033429417967046 * x) * y) * (x - y)) * (x + y))
  | 17%Z => (((EC (-1.7701307697799304) * y) * z) * ((y * y) - ((EC 3 * x) * x)))
  | 18%Z => (((EC (-0.9461746957575601) * x) * y) * (((x * x) + (y * y)) - ((EC 6 * z) * z)))
  | 19%Z => (((EC (-0.6690465435572892) * y) * z) * ((EC 3 * ((x * x) + (y * y))) - ((EC 4 * z) * z)))
  | 20%Z => (EC 0.03526184897173477 * (((EC 9 * x2y2) * (x2y2 - (EC 8 * z2))) + ((EC 24 * z2) * z2)))
  | 21%Z => (((EC (-0.6690465435572892) * x) * z) * ((EC 3 * ((x * x) + (y * y))) - ((EC 4 * z) * z)))
  | 22%Z => ((EC (-0.47308734787878004) * (x2 - y2)) * ((x2 + y2) - ((EC 6 * z) * z)))
  | 23%Z => (((EC 1.7701307697799304 * x) * z) * ((x * x) - ((EC 3 * y) * y)))
  | 24%Z => (EC 0.6258357354491761 * ((x2 * (x2 - (EC 6 * y2))) + (y2 * y2)))
  | 25%Z => ((EC 0.6563820568401701 * y) * (((EC 5 * x2) * (x2 - (EC 2 * y2))) + (y2 * y2)))
  | 26%Z => (((((EC 8.302649259524166 * x) * y) * z) * (x - y)) * (x + y))
  | 27%Z => (((EC 0.4892382994352504 * y) * (y2 - (EC 3 * x2))) * ((x2 + y2) - ((EC 8 * z) * z)))
  | 28%Z => ((((EC (-4.793536784973324) * x) * y) * z) * (((x * x) + (y * y)) - ((EC 2 * z) * z)))
  | 29%Z => ((EC 0.45294665119569694 * y) * ((x2y2 * (x2y2 - (EC 12 * z2))) + ((EC 8 * z2) * z2)))
  | 30%Z => ((EC 0.1169503224534236 * z) * (((EC 15 * x2y2) * x2y2) - ((EC 8 * z2) * ((EC 5 * x2y2) - z2))))
  | 31%Z => ((EC 0.45294665119569694 * x) * ((x2y2 * (x2y2 - (EC 12 * z2))) + ((EC 8 * z2) * z2)))
  | 32%Z => (((EC (-2.396768392486662) * (x2 - y2)) * z) * ((x2 + y2) - ((EC 2 * z) * z)))
  | 33%Z => (((EC (-0.4892382994352504) * x) * (x2 - (EC 3 * y2))) * ((x2 + y2) - ((EC 8 * z) * z)))
  | 34%Z => ((EC 2.0756623148810416 * z) * ((x2 * (x2 - (EC 6 * y2))) + (y2 * y2)))
  | 35%Z => ((EC 0.6563820568401701 * x) * ((x2 * (x2 - (EC 10 * y2))) + ((EC 5 * y2) * y2)))
  | 36%Z => (((EC 1.3663682103838286 * x) * y) * ((x2 * ((EC 3 * x2) - (EC 10 * y2))) + ((EC 3 * y2) * y2)))
  | 37%Z => (((EC 2.366619162231752 * y) * z) * (((EC 5 * x2) * (x2 - (EC 2 * y2))) + (y2 * y2)))
  | 38%Z => ((((EC (-2.0182596029148967) * x) * y) * (x2 - y2)) * ((x2 + y2) - ((EC 10 * z) * z)))
  | 39%Z => ((((EC 0.9212052595149236 * y) * z) * (y2 - (EC 3 * x2))) * ((EC 3 * (x2 + y2)) - ((EC 8 * z) * z)))
  | 40%Z => (((EC 0.9212052595149236 * x) * y) * ((x2y2 * (x2y2 - (EC 16 * z2))) + ((EC 16 * z2) * z2)))
  | 41%Z => (((EC 0.5826213625187314 * y) * z) * (((EC 5 * x2y2) * (x2y2 - (EC 4 * z2))) + ((EC 8 * z2) * z2)))
  | 42%Z => (EC 0.06356920226762842 * ((((EC 5 * x2y2) * x2y2) * ((EC 18 * z2) - x2y2)) + (((EC 8 * z2) * z2) * ((EC 2 * z2) - (EC 15 * x2y2)))))
  | 43%Z => (((EC 0.5826213625187314 * x) * z) * (((EC 5 * x2y2) * (x2y2 - (EC 4 * z2))) + ((EC 8 * z2) * z2)))
  | 44%Z => ((EC 0.4606026297574618 * (x2 - y2)) * ((x2y2 * (x2y2 - (EC 16 * z2))) + ((EC 16 * z2) * z2)))
  | 45%Z => ((((EC (-0.9212052595149236) * x) * z) * (x2 - (EC 3 * y2))) * ((EC 3 * (x2 + y2)) - ((EC 8 * z) * z)))
  | 46%Z => ((EC (-0.5045649007287242) * ((x2 * (x2 - (EC 6 * y2))) + (y2 * y2))) * ((x2 + y2) - ((EC 10 * z) * z)))
  | 47%Z => (((EC 2.366619162231752 * x) * z) * ((x2 * (x2 - (EC 10 * y2))) + ((EC 5 * y2) * y2)))
  | 48%Z => (EC 0.6831841051919143 * (((x2 * x2) * (x2 - (EC 15 * y2))) + ((y2 * y2) * ((EC 15 * x2) - y2))))
  | _ => EC 0
  end%expr.
(** lines 131-140 and 197 *)
Definition Ylm (l m : Z) (q : vec R) : R := ev (ylmE (l * (l + 1) + m)) (vecEnv q).

(** ** expandYlmProd: lines 208-352; the list is empty for larger indices *)
Definition prodTable (n : Z) : list (Z * Z * Q) :=
  match n with
  | 0 => [(0, 0, (0.28209479177387814)%Q)]
  | 1 => [(1, -1, (0.28209479177387814)%Q)]
  | 2 => [(0, 0, (0.28209479177387814)%Q); (2, 0, (-0.126156626101008)%Q); (2, 2, (-0.2185096861184158)%Q)]
  | 3 => [(1, 0, (0.28209479177387814)%Q)]
  | 4 => [(2, -1, (0.2185096861184158)%Q)]
  | 5 => [(0, 0, (0.28209479177387814)%Q); (2, 0, (0.252313252202016)%Q)]
  | 6 => [(1, 1, (0.28209479177387814)%Q)]
  | 7 => [(2, -2, (0.2185096861184158)%Q)]
  | 8 => [(2, 1, (0.2185096861184158)%Q)]
  | 9 => [(0, 0, (0.28209479177387814)%Q); (2, 0, (-0.126156626101008)%Q); (2, 2, (0.2185096861184158)%Q)]
  | 10 => [(2, -2, (0.28209479177387814)%Q)]
  | 11 => [(1, 1, (0.2185096861184158)%Q); (3, 1, (-0.058399170081901854)%Q); (3, 3, (-0.2261790131595403)%Q)]
  | 12 => [(3, -2, (0.18467439092237178)%Q)]
  | 13 => [(1, -1, (0.2185096861184158)%Q); (3, -3, (0.2261790131595403)%Q); (3, -1, (-0.058399170081901854)%Q)]
  | 14 => [(0, 0, (0.28209479177387814)%Q); (2, 0, (-0.18022375157286857)%Q); (4, 0, (0.04029925596769687)%Q); (4, 4, (-0.23841361350444806)%Q)]
  | 15 => [(2, -1, (0.28209479177387814)%Q)]
  | 16 => [(1, 0, (0.2185096861184158)%Q); (3, 0, (-0.14304816810266882)%Q); (3, 2, (-0.18467439092237178)%Q)]
  | 17 => [(1, -1, (0.2185096861184158)%Q); (3, -1, (0.23359668032760741)%Q)]
  | 18 => [(3, -2, (0.18467439092237178)%Q)]
  | 19 => [(2, 1, (0.15607834722743988)%Q); (4, 1, (-0.06371871843402754)%Q); (4, 3, (-0.16858388283618386)%Q)]
  | 20 => [(0, 0, (0.28209479177387814)%Q); (2, 0, (0.09011187578643429)%Q); (2, 2, (-0.15607834722743988)%Q); (4, 0, (-0.1611970238707875)%Q); (4, 2, (-0.18022375157286857)%Q)]
  | 21 => [(2, 0, (0.28209479177387814)%Q)]
  | 22 => [(1, -1, (-0.126156626101008)%Q); (3, -1, (0.20230065940342062)%Q)]
  | 23 => [(1, 0, (0.252313252202016)%Q); (3, 0, (0.2477666950834761)%Q)]
  | 24 => [(1, 1, (-0.126156626101008)%Q); (3, 1, (0.20230065940342062)%Q)]
  | 25 => [(2, -2, (-0.18022375157286857)%Q); (4, -2, (0.15607834722743988)%Q)]
  | 26 => [(2, -1, (0.09011187578643429)%Q); (4, -1, (0.2207281154418226)%Q)]
  | 27 => [(0, 0, (0.28209479177387814)%Q); (2, 0, (0.18022375157286857)%Q); (4, 0, (0.24179553580618124)%Q)]
  | 28 => [(2, 1, (0.28209479177387814)%Q)]
  | 29 => [(3, -2, (0.18467439092237178)%Q)]
  | 30 => [(1, 1, (0.2185096861184158)%Q); (3, 1, (0.23359668032760741)%Q)]
  | 31 => [(1, 0, (0.2185096861184158)%Q); (3, 0, (-0.14304816810266882)%Q); (3, 2, (0.18467439092237178)%Q)]
  | 32 => [(2, -1, (0.15607834722743988)%Q); (4, -3, (0.16858388283618386)%Q); (4, -1, (-0.06371871843402754)%Q)]
  | 33 => [(2, -2, (0.15607834722743988)%Q); (4, -2, (0.18022375157286857)%Q)]
  | 34 => [(2, 1, (0.09011187578643429)%Q); (4, 1, (0.2207281154418226)%Q)]
  | 35 => [(0, 0, (0.28209479177387814)%Q); (2, 0, (0.09011187578643429)%Q); (2, 2, (0.15607834722743988)%Q); (4, 0, (-0.1611970238707875)%Q); (4, 2, (0.18022375157286857)%Q)]
  | 36 => [(2, 2, (0.28209479177387814)%Q)]
  | 37 => [(1, -1, (-0.2185096861184158)%Q); (3, -3, (0.2261790131595403)%Q); (3, -1, (0.058399170081901854)%Q)]
  | 38 => [(3, 2, (0.18467439092237178)%Q)]
  | 39 => [(1, 1, (0.2185096861184158)%Q); (3, 1, (-0.058399170081901854)%Q); (3, 3, (0.2261790131595403)%Q)]
  | 40 => [(4, -4, (0.23841361350444806)%Q)]
  | 41 => [(2, -1, (-0.15607834722743988)%Q); (4, -3, (0.16858388283618386)%Q); (4, -1, (0.06371871843402754)%Q)]
  | 42 => [(2, 2, (-0.18022375157286857)%Q); (4, 2, (0.15607834722743988)%Q)]
  | 43 => [(2, 1, (0.15607834722743988)%Q); (4, 1, (-0.06371871843402754)%Q); (4, 3, (0.16858388283618386)%Q)]
  | 44 => [(0, 0, (0.28209479177387814)%Q); (2, 0, (-0.18022375157286857)%Q); (4, 0, (0.04029925596769687)%Q); (4, 4, (0.23841361350444806)%Q)]
  | 45 => [(3, -3, (0.28209479177387814)%Q)]
  | 46 => [(2, 2, (0.2261790131595403)%Q); (4, 2, (-0.04352817137756816)%Q); (4, 4, (-0.23032943298089034)%Q)]
  | 47 => [(4, -3, (0.16286750396763996)%Q)]
  | 48 => [(2, -2, (0.2261790131595403)%Q); (4, -4, (0.23032943298089034)%Q); (4, -2, (-0.04352817137756816)%Q)]
  | 49 => [(1, 1, (0.2261790131595403)%Q); (3, 1, (-0.09403159725795937)%Q); (5, 1, (0.01694331772935932)%Q); (5, 5, (-0.2455320005465369)%Q)]
  | 50 => [(3, 2, (0.1486770096793976)%Q); (5, 2, (-0.04482780509623635)%Q); (5, 4, (-0.1552880720369528)%Q)]
  | 51 => [(3, -3, (-0.21026104350168)%Q); (5, -3, (0.12679217987703037)%Q)]
  | 52 => [(3, -2, (0.1486770096793976)%Q); (5, -4, (0.1552880720369528)%Q); (5, -2, (-0.04482780509623635)%Q)]
  | 53 => [(1, -1, (0.2261790131595403)%Q); (3, -1, (-0.09403159725795937)%Q); (5, -5, (0.2455320005465369)%Q); (5, -1, (0.01694331772935932)%Q)]
  | 54 => [(0, 0, (0.28209479177387814)%Q); (2, 0, (-0.21026104350168)%Q); (4, 0, (0.07693494321105766)%Q); (6, 0, (-0.011854396693264043)%Q); (6, 6, (-0.25480059867297505)%Q)]
  | 55 => [(3, -2, (0.28209479177387814)%Q)]
  | 56 => [(2, 1, (0.18467439092237178)%Q); (4, 1, (-0.07539300438651343)%Q); (4, 3, (-0.19947114020071635)%Q)]
  | 57 => [(2, -2, (0.18467439092237178)%Q); (4, -2, (0.21324361862292307)%Q)]
  | 58 => [(2, -1, (0.18467439092237178)%Q); (4, -3, (0.19947114020071635)%Q); (4, -1, (-0.07539300438651343)%Q)]
  | 59 => [(1, 0, (0.18467439092237178)%Q); (3, 0, (-0.18806319451591874)%Q); (5, 0, (0.05357947514468781)%Q); (5, 4, (-0.19018826981554557)%Q)]
  | 60 => [(1, 1, (0.18467439092237178)%Q); (3, 1, (0.11516471649044517)%Q); (3, 3, (-0.1486770096793976)%Q); (5, 1, (-0.08300496597356405)%Q); (5, 3, (-0.1793112203849454)%Q)]
  | 61 => [(5, -2, (0.19018826981554557)%Q)]
  | 62 => [(1, -1, (0.18467439092237178)%Q); (3, -3, (0.1486770096793976)%Q); (3, -1, (0.11516471649044517)%Q); (5, -3, (0.1793112203849454)%Q); (5, -1, (-0.08300496597356405)%Q)]
  | 63 => [(5, -4, (0.19018826981554557)%Q)]
  | 64 => [(2, 1, (0.1486770096793976)%Q); (4, 1, (-0.09932258459927992)%Q); (6, 1, (0.022177545476549994)%Q); (6, 5, (-0.1801712311720527)%Q)]
  | 65 => [(0, 0, (0.28209479177387814)%Q); (4, 0, (-0.1795148674924679)%Q); (4, 4, (-0.15171775404828514)%Q); (6, 0, (0.07112638015958425)%Q); (6, 4, (-0.18818271355849853)%Q)]
  | 66 => [(3, -1, (0.28209479177387814)%Q)]
  | 67 => [(2, 0, (0.20230065940342062)%Q); (2, 2, (0.058399170081901854)%Q); (4, 0, (-0.15078600877302686)%Q); (4, 2, (-0.16858388283618386)%Q)]
  | 68 => [(2, -1, (0.23359668032760741)%Q); (4, -1, (0.23841361350444806)%Q)]
  | 69 => [(2, -2, (-0.058399170081901854)%Q); (4, -2, (0.16858388283618386)%Q)]
  | 70 => [(1, 1, (-0.058399170081901854)%Q); (3, 1, (0.1456731240789439)%Q); (3, 3, (0.09403159725795937)%Q); (5, 1, (-0.0656211873953095)%Q); (5, 3, (-0.14175796661021045)%Q)]
  | 71 => [(1, 0, (0.23359668032760741)%Q); (3, 0, (0.05947080387175903)%Q); (3, 2, (-0.11516471649044517)%Q); (5, 0, (-0.1694331772935932)%Q); (5, 2, (-0.17361734258475534)%Q)]
  | 72 => [(1, -1, (0.20230065940342062)%Q); (3, -1, (0.126156626101008)%Q); (5, -1, (0.22731846124334898)%Q)]
  | 73 => [(3, -2, (0.11516471649044517)%Q); (5, -2, (0.17361734258475534)%Q)]
  | 74 => [(1, -1, (0.058399170081901854)%Q); (3, -3, (-0.09403159725795937)%Q); (3, -1, (-0.1456731240789439)%Q); (5, -3, (0.14175796661021045)%Q); (5, -1, (0.0656211873953095)%Q)]
  | 75 => [(2, 2, (-0.09403159725795937)%Q); (4, 2, (0.13325523051897814)%Q); (4, 4, (0.11752006695060024)%Q); (6, 2, (-0.04435509095309999)%Q); (6, 4, (-0.1214714192760309)%Q)]
  | 76 => [(2, 1, (0.11516471649044517)%Q); (4, 1, (0.10257992428141023)%Q); (4, 3, (-0.06785024228911189)%Q); (6, 1, (-0.08589326429043577)%Q); (6, 3, (-0.16297101049475005)%Q)]
  | 77 => [(0, 0, (0.28209479177387814)%Q); (2, 0, (0.126156626101008)%Q); (2, 2, (-0.1456731240789439)%Q); (4, 0, (0.025644981070352558)%Q); (4, 2, (-0.11468784191000729)%Q); (6, 0, (-0.17781595039896067)%Q); (6, 2, (-0.17178652858087154)%Q)]
  | 78 => [(3, 0, (0.28209479177387814)%Q)]
  | 79 => [(2, -1, (-0.14304816810266882)%Q); (4, -1, (0.19466390027300617)%Q)]
  | 80 => [(2, 0, (0.2477666950834761)%Q); (4, 0, (0.24623252122982908)%Q)]
  | 81 => [(2, 1, (-0.14304816810266882)%Q); (4, 1, (0.19466390027300617)%Q)]
  | 82 => [(3, -2, (-0.18806319451591874)%Q); (5, -2, (0.14175796661021045)%Q)]
  | 83 => [(1, -1, (-0.14304816810266882)%Q); (3, -1, (0.05947080387175903)%Q); (5, -1, (0.21431790057875125)%Q)]
  | 84 => [(1, 0, (0.2477666950834761)%Q); (3, 0, (0.168208834801344)%Q); (5, 0, (0.23961469724456466)%Q)]
  | 85 => [(1, 1, (-0.14304816810266882)%Q); (3, 1, (0.05947080387175903)%Q); (5, 1, (0.21431790057875125)%Q)]
  | 86 => [(3, 2, (-0.18806319451591874)%Q); (5, 2, (0.14175796661021045)%Q)]
  | 87 => [(4, -3, (-0.20355072686733566)%Q); (6, -3, (0.10864734032983336)%Q)]
  | 88 => [(2, -2, (-0.18806319451591874)%Q); (4, -2, (-0.04441841017299272)%Q); (6, -2, (0.17742036381239995)%Q)]
  | 89 => [(2, -1, (0.05947080387175903)%Q); (4, -1, (0.09932258459927992)%Q); (6, -1, (0.22177545476549995)%Q)]
  | 90 => [(0, 0, (0.28209479177387814)%Q); (2, 0, (0.168208834801344)%Q); (4, 0, (0.15386988642211533)%Q); (6, 0, (0.23708793386528085)%Q)]
  | 91 => [(3, 1, (0.28209479177387814)%Q)]
  | 92 => [(2, -2, (-0.058399170081901854)%Q); (4, -2, (0.16858388283618386)%Q)]
  | 93 => [(2, 1, (0.23359668032760741)%Q); (4, 1, (0.23841361350444806)%Q)]
  | 94 => [(2, 0, (0.20230065940342062)%Q); (2, 2, (-0.058399170081901854)%Q); (4, 0, (-0.15078600877302686)%Q); (4, 2, (0.16858388283618386)%Q)]
  | 95 => [(1, -1, (-0.058399170081901854)%Q); (3, -3, (-0.09403159725795937)%Q); (3, -1, (0.1456731240789439)%Q); (5, -3, (0.14175796661021045)%Q); (5, -1, (-0.0656211873953095)%Q)]
  | 96 => [(3, -2, (0.11516471649044517)%Q); (5, -2, (0.17361734258475534)%Q)]
  | 97 => [(1, 1, (0.20230065940342062)%Q); (3, 1, (0.126156626101008)%Q); (5, 1, (0.22731846124334898)%Q)]
  | 98 => [(1, 0, (0.23359668032760741)%Q); (3, 0, (0.05947080387175903)%Q); (3, 2, (0.11516471649044517)%Q); (5, 0, (-0.1694331772935932)%Q); (5, 2, (0.17361734258475534)%Q)]
  | 99 => [(1, 1, (-0.058399170081901854)%Q); (3, 1, (0.1456731240789439)%Q); (3, 3, (-0.09403159725795937)%Q); (5, 1, (-0.0656211873953095)%Q); (5, 3, (0.14175796661021045)%Q)]
  | 100 => [(2, -2, (-0.09403159725795937)%Q); (4, -4, (-0.11752006695060024)%Q); (4, -2, (0.13325523051897814)%Q); (6, -4, (0.1214714192760309)%Q); (6, -2, (-0.04435509095309999)%Q)]
  | 101 => [(2, -1, (0.11516471649044517)%Q); (4, -3, (0.06785024228911189)%Q); (4, -1, (0.10257992428141023)%Q); (6, -3, (0.16297101049475005)%Q); (6, -1, (-0.08589326429043577)%Q)]
  | 102 => [(2, -2, (0.1456731240789439)%Q); (4, -2, (0.11468784191000729)%Q); (6, -2, (0.17178652858087154)%Q)]
  | 103 => [(2, 1, (0.05947080387175903)%Q); (4, 1, (0.09932258459927992)%Q); (6, 1, (0.22177545476549995)%Q)]
  | 104 => [(0, 0, (0.28209479177387814)%Q); (2, 0, (0.126156626101008)%Q); (2, 2, (0.1456731240789439)%Q); (4, 0, (0.025644981070352558)%Q); (4, 2, (0.11468784191000729)%Q); (6, 0, (-0.17781595039896067)%Q); (6, 2, (0.17178652858087154)%Q)]
  | 105 => [(3, 2, (0.28209479177387814)%Q)]
  | 106 => [(2, -1, (-0.18467439092237178)%Q); (4, -3, (0.19947114020071635)%Q); (4, -1, (0.07539300438651343)%Q)]
  | 107 => [(2, 2, (0.18467439092237178)%Q); (4, 2, (0.21324361862292307)%Q)]
  | 108 => [(2, 1, (0.18467439092237178)%Q); (4, 1, (-0.07539300438651343)%Q); (4, 3, (0.19947114020071635)%Q)]
  | 109 => [(5, -4, (0.19018826981554557)%Q)]
  | 110 => [(1, -1, (-0.18467439092237178)%Q); (3, -3, (0.1486770096793976)%Q); (3, -1, (-0.11516471649044517)%Q); (5, -3, (0.1793112203849454)%Q); (5, -1, (0.08300496597356405)%Q)]
  | 111 => [(5, 2, (0.19018826981554557)%Q)]
  | 112 => [(1, 1, (0.18467439092237178)%Q); (3, 1, (0.11516471649044517)%Q); (3, 3, (0.1486770096793976)%Q); (5, 1, (-0.08300496597356405)%Q); (5, 3, (0.1793112203849454)%Q)]
  | 113 => [(1, 0, (0.18467439092237178)%Q); (3, 0, (-0.18806319451591874)%Q); (5, 0, (0.05357947514468781)%Q); (5, 4, (0.19018826981554557)%Q)]
  | 114 => [(2, -1, (0.1486770096793976)%Q); (4, -1, (-0.09932258459927992)%Q); (6, -5, (0.1801712311720527)%Q); (6, -1, (0.022177545476549994)%Q)]
  | 115 => [(4, -4, (0.15171775404828514)%Q); (6, -4, (0.18818271355849853)%Q)]
  | 116 => [(2, -1, (-0.11516471649044517)%Q); (4, -3, (0.06785024228911189)%Q); (4, -1, (-0.10257992428141023)%Q); (6, -3, (0.16297101049475005)%Q); (6, -1, (0.08589326429043577)%Q)]
  | 117 => [(2, 2, (-0.18806319451591874)%Q); (4, 2, (-0.04441841017299272)%Q); (6, 2, (0.17742036381239995)%Q)]
  | 118 => [(2, 1, (0.11516471649044517)%Q); (4, 1, (0.10257992428141023)%Q); (4, 3, (0.06785024228911189)%Q); (6, 1, (-0.08589326429043577)%Q); (6, 3, (0.16297101049475005)%Q)]
  | 119 => [(0, 0, (0.28209479177387814)%Q); (4, 0, (-0.1795148674924679)%Q); (4, 4, (0.15171775404828514)%Q); (6, 0, (0.07112638015958425)%Q); (6, 4, (0.18818271355849853)%Q)]
  | 120 => [(3, 3, (0.28209479177387814)%Q)]
  | 121 => [(2, -2, (-0.2261790131595403)%Q); (4, -4, (0.23032943298089034)%Q); (4, -2, (0.04352817137756816)%Q)]
  | 122 => [(4, 3, (0.16286750396763996)%Q)]
  | 123 => [(2, 2, (0.2261790131595403)%Q); (4, 2, (-0.04352817137756816)%Q); (4, 4, (0.23032943298089034)%Q)]
  | 124 => [(1, -1, (-0.2261790131595403)%Q); (3, -1, (0.09403159725795937)%Q); (5, -5, (0.2455320005465369)%Q); (5, -1, (-0.01694331772935932)%Q)]
  | 125 => [(3, -2, (-0.1486770096793976)%Q); (5, -4, (0.1552880720369528)%Q); (5, -2, (0.04482780509623635)%Q)]
  | 126 => [(3, 3, (-0.21026104350168)%Q); (5, 3, (0.12679217987703037)%Q)]
  | 127 => [(3, 2, (0.1486770096793976)%Q); (5, 2, (-0.04482780509623635)%Q); (5, 4, (0.1552880720369528)%Q)]
  | 128 => [(1, 1, (0.2261790131595403)%Q); (3, 1, (-0.09403159725795937)%Q); (5, 1, (0.01694331772935932)%Q); (5, 5, (0.2455320005465369)%Q)]
  | 129 => [(6, -6, (0.25480059867297505)%Q)]
  | 130 => [(2, -1, (-0.1486770096793976)%Q); (4, -1, (0.09932258459927992)%Q); (6, -5, (0.1801712311720527)%Q); (6, -1, (-0.022177545476549994)%Q)]
  | 131 => [(2, -2, (0.09403159725795937)%Q); (4, -4, (-0.11752006695060024)%Q); (4, -2, (-0.13325523051897814)%Q); (6, -4, (0.1214714192760309)%Q); (6, -2, (0.04435509095309999)%Q)]
  | 132 => [(4, 3, (-0.20355072686733566)%Q); (6, 3, (0.10864734032983336)%Q)]
  | 133 => [(2, 2, (-0.09403159725795937)%Q); (4, 2, (0.13325523051897814)%Q); (4, 4, (-0.11752006695060024)%Q); (6, 2, (-0.04435509095309999)%Q); (6, 4, (0.1214714192760309)%Q)]
  | 134 => [(2, 1, (0.1486770096793976)%Q); (4, 1, (-0.09932258459927992)%Q); (6, 1, (0.022177545476549994)%Q); (6, 5, (0.1801712311720527)%Q)]
  | 135 => [(0, 0, (0.28209479177387814)%Q); (2, 0, (-0.21026104350168)%Q); (4, 0, (0.07693494321105766)%Q); (6, 0, (-0.011854396693264043)%Q); (6, 6, (0.25480059867297505)%Q)]
  | _ => []
  end%Z.
(** the swap of line 209, and the index of line 212 *)
Definition expandYlmProd (lm1 lm2 : Z) : list (Z * Z * Q) :=
  let '(lm1, lm2) := if (lm2 >? lm1)%Z then (lm2, lm1) else (lm1, lm2) in prodTable (lm2 + lm1 * (lm1 + 1) / 2)%Z.
(** lines 353-358 *)
Definition expandYlmProd_lm (l1 m1 l2 m2 : Z) : list (Z * Z * Q) := expandYlmProd (l1 * (l1 + 1) + m1) (l2 * (l2 + 1) + m2).

(** ** YlmPrime: lines 361-399.  A component of the result is the sum of the terms added to it, each a factor, square roots, and indices of a harmonic *)
Record term := Term { t_factor : Q; t_roots : list Q; t_l : Z; t_m : Z }.
Definition termVal (q : vec R) (t : term) : R := (Q2R (t_factor t) * fold_right (fun r p => sqrt (Q2R r) * p) 1 (t_roots t) * Ylm (t_l t) (t_m t) q)%R.
Section Prime.
  Variables l m : Z.
  Definition ratio : Q := inject_Z (2 * l + 1) / inject_Z (2 * l - 1).
  (** lines 363-365 *)
  Definition primeZ : list term := if (l >? 0)%Z then [Term 1 [(inject_Z (l * l - m * m) * ratio)%Q] (l - 1) m] else [].
  (** lines 366-397; alpha, alphaM and alphaP are lists of square roots, with the factor 1/2 kept apart *)
  Definition alpha : list Q := [((1 # 2) * inject_Z l * inject_Z (l - 1) * ratio)%Q].
  Definition alphaM : list Q := [(inject_Z ((l - m) * (l - m - 1)) * ratio)%Q].
  Definition alphaP : list Q := [(inject_Z ((l + m) * (l + m - 1)) * ratio)%Q].
  Definition primeX : list term :=
    if (m =? 0)%Z then (if (l >? 1)%Z then [Term (-1) alpha (l - 1) 1] else [])
    else if (m >? 0)%Z then
      (if (l >? m + 1)%Z then [Term (-1 # 2) alphaM (l - 1) (m + 1)] else []) ++
      (if (l >=? m)%Z then [Term (1 # 2) (alphaP ++ (if (m =? 1)%Z then [2%Q] else [1%Q])) (l - 1) (m - 1)] else [])
    else
      (if (- l <=? m)%Z then [Term (if (m =? -1)%Z then 0 else 1 # 2) alphaM (l - 1) (m + 1)] else []) ++
      (if (- l <? m - 1)%Z then [Term (-1 # 2) alphaP (l - 1) (m - 1)] else []).
  Definition primeY : list term :=
    if (m =? 0)%Z then (if (l >? 1)%Z then [Term (-1) alpha (l - 1) (-1)] else [])
    else if (m >? 0)%Z then
      (if (l >? m + 1)%Z then [Term (-1 # 2) alphaM (l - 1) (- (m + 1))] else []) ++
      (if (l >=? m)%Z then [Term (if (m =? 1)%Z then 0 else -1 # 2) alphaP (l - 1) (- (m - 1))] else [])
    else
      (if (- l <=? m)%Z then [Term (1 # 2) (alphaM ++ (if (m =? -1)%Z then [2%Q] else [1%Q])) (l - 1) (- (m + 1))] else []) ++
      (if (- l <? m - 1)%Z then [Term (1 # 2) alphaP (l - 1) (- (m - 1))] else []).
  Definition sumTerms (q : vec R) (ts : list term) : R := fold_left (fun s t => (s + termVal q t)%R) ts 0%R.
  Definition YlmPrime (q : vec R) : vec R := V (sumTerms q primeX) (sumTerms q primeY) (sumTerms q primeZ).
End Prime.
