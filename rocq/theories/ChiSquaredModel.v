(* Model of stats/incomplete_gamma.hpp, stats/gauss_legendre.hpp and the scalar functions of stats/chi_squared.hpp. A double
   is an extended real (ExtRealModel.v): infinities and NaN are kept, there is no rounding and no underflow. *)
From Coq Require Import Reals List ZArith Bool.
From Verif Require Import Base ExtRealModel DistanceModel RadialModel.
Import ListNotations.
Local Open Scope R_scope.

(* std::numeric_limits<double>::epsilon() *)
Definition epsilon : R := / 2 ^ 52.

(* stats/gauss_legendre.hpp:25-50 and 52-77: the 32 decimals of each coefficient *)
Definition gauss_legendre_50_points : list Z := [
  (-3109833832718887611232898966595); 3109833832718887611232898966595; (-9317470156008614085445037763960);
   9317470156008614085445037763960; (-15489058999814590207162862094111); 15489058999814590207162862094111;
   (-21600723687604175684728453261710); 21600723687604175684728453261710; (-27628819377953199032764527852113);
   27628819377953199032764527852113; (-33550024541943735683698825729107); 33550024541943735683698825729107;
   (-39341431189756512739422925382382); 39341431189756512739422925382382; (-44980633497403878914713146777838);
   44980633497403878914713146777838; (-50445814490746420165145913184914); 50445814490746420165145913184914;
   (-55715830451465005431552290962580); 55715830451465005431552290962580; (-60770292718495023918038179639183);
   60770292718495023918038179639183; (-65589646568543936078162486400368); 65589646568543936078162486400368;
   (-70155246870682225108954625788366); 70155246870682225108954625788366; (-74449430222606853826053625268219);
   74449430222606853826053625268219; (-78455583290039926390530519634099); 78455583290039926390530519634099;
   (-82158207085933594835625411087394); 82158207085933594835625411087394; (-85542976942994608461136264393476);
   85542976942994608461136264393476; (-88596797952361304863754098246675); 88596797952361304863754098246675;
   (-91307855665579189308973564277166); 91307855665579189308973564277166; (-93665661894487793378087494727250);
   93665661894487793378087494727250; (-95661095524280794299774564415662); 95661095524280794299774564415662;
   (-97286438510669207371334410460625); 97286438510669207371334410460625; (-98535408404800588230900962563249);
   98535408404800588230900962563249; (-99403196943209071258510820042069); 99403196943209071258510820042069;
   (-99886640442007105018545944497422); 99886640442007105018545944497422]%Z.
Definition gauss_legendre_50_weights : list Z := [
  6217661665534726232103310736061; 6217661665534726232103310736061; 6193606742068324338408750978083;
   6193606742068324338408750978083; 6145589959031666375640678608392; 6145589959031666375640678608392;
   6073797084177021603175001538481; 6073797084177021603175001538481; 5978505870426545750957640531259;
   5978505870426545750957640531259; 5860084981322244583512243663085; 5860084981322244583512243663085;
   5718992564772838372302931506599; 5718992564772838372302931506599; 5555774480621251762356742561227;
   5555774480621251762356742561227; 5371062188899624652345879725566; 5371062188899624652345879725566;
   5165570306958113848990529584010; 5165570306958113848990529584010; 4940093844946631492124358075143;
   4940093844946631492124358075143; 4695505130394843296563301363499; 4695505130394843296563301363499;
   4432750433880327549202228683039; 4432750433880327549202228683039; 4152846309014769742241197896407;
   4152846309014769742241197896407; 3856875661258767524477015023639; 3856875661258767524477015023639;
   3545983561514615416073461100098; 3545983561514615416073461100098; 3221372822357801664816582732300;
   3221372822357801664816582732300; 2884299358053519802990637311323; 2884299358053519802990637311323;
   2536067357001239044019487838544; 2536067357001239044019487838544; 2178024317012479298159206906269;
   2178024317012479298159206906269; 1811556071348939035125994342235; 1811556071348939035125994342235;
   1438082276148557441937890892732; 1438082276148557441937890892732; 1059054838365096926356968149924;
   1059054838365096926356968149924; 675979919574540150277887817799; 675979919574540150277887817799;
   290862255315514095840072434286; 290862255315514095840072434286]%Z.
Definition decimals (z : Z) : R := IZR z / IZR (10 ^ 32).

(* stats/incomplete_gamma.hpp:33-34 *)
Definition INCOMPLETE_GAMMA_RECURSSION_LIMIT : nat := 54.
Definition INCOMPLETE_GAMMA_EQUALITY_TRESHOLD : R := / 10 ^ 12.

(* stats/incomplete_gamma.hpp:36-45 *)
Definition quadrature_inp_vals (lb ub : xr) (counter : nat) : outcome xr :=
  match nth_error gauss_legendre_50_points counter with
  | None => Abort
  | Some point => Ok (xadd (xmul (xmul (xsub ub lb) (XFin (/ 2))) (XFin (decimals point))) (xmul (XFin (/ 2)) (xadd ub lb)))
  end.
(* stats/incomplete_gamma.hpp:47-51 *)
Definition quadrature_weight_vals (lb ub : xr) (counter : nat) : outcome xr :=
  match nth_error gauss_legendre_50_weights counter with
  | None => Abort
  | Some weight => Ok (xmul (xmul (xsub ub lb) (XFin (/ 2))) (XFin (decimals weight)))
  end.
(* stats/incomplete_gamma.hpp:53-56 *)
Definition quadrature_fn (a large_term x : xr) : xr :=
  xexp (xsub (xadd (xopp x) (xmul (xsub a (XFin 1)) (xlog x))) large_term).

(* stats/incomplete_gamma.hpp:58-74. The integrand is an argument, and remaining is size() - 1 - counter *)
Fixpoint quadrature_recursive (fn : xr -> xr) (lb ub : xr) (remaining counter : nat) : outcome xr :=
  x <- quadrature_inp_vals lb ub counter ;;
  weight <- quadrature_weight_vals lb ub counter ;;
  match remaining with
  | O => Ok (xmul (fn x) weight)
  | S remaining => rest <- quadrature_recursive fn lb ub remaining (S counter) ;; Ok (xadd (xmul (fn x) weight) rest)
  end.
Definition quadrature_rule (fn : xr -> xr) (lb ub : xr) : outcome xr :=
  quadrature_recursive fn lb ub (length gauss_legendre_50_weights - 1) 0.

(* stats/incomplete_gamma.hpp:76-83 *)
Definition quadrature_bounds (a z : xr) : xr * xr :=
  (std_max (XFin 0) (xsub (std_min z a) (xmul (XFin 12) (xsqrt a))),
   std_min z (xadd a (xmul (XFin 13) (xsqrt (xadd a (XFin 1)))))).

(* stats/incomplete_gamma.hpp:91-100 *)
Definition continuous_fraction_numerator (a z : xr) (depth : nat) : xr :=
  if Nat.even depth then xmul (xmul (XFin (/ 2)) (XFin (INR depth))) z
  else xmul (xopp (xadd (xsub a (XFin 1)) (xmul (XFin (/ 2)) (xadd (XFin (INR depth)) (XFin 1))))) z.
(* stats/incomplete_gamma.hpp:102-113. remaining is the number of recursive calls left: depth = LIMIT + 1 - remaining *)
Fixpoint continuous_fraction_rec (a z : xr) (remaining : nat) : xr :=
  let depth := (INCOMPLETE_GAMMA_RECURSSION_LIMIT + 1 - remaining)%nat in
  match remaining with
  | O => xsub (xadd a (XFin (INR depth))) (XFin 1)
  | S remaining =>
      xadd (xsub (xadd a (XFin (INR depth))) (XFin 1))
           (xdiv (continuous_fraction_numerator a z depth) (continuous_fraction_rec a z remaining))
  end.

Section IncompleteGamma.
Variables tgamma lgamma : xr -> xr.   (* std::tgamma, std::lgamma *)

(* stats/incomplete_gamma.hpp:85-89 *)
Definition incomplete_gamma_quadrature (a z : xr) : outcome xr :=
  let bounds := quadrature_bounds a z in
  quadrature_rule (quadrature_fn a (lgamma a)) (fst bounds) (snd bounds).

(* stats/incomplete_gamma.hpp:115-130; the recursion starts at depth 1 *)
Definition incomplete_gamma_continuous_fraction (a z : xr) : xr :=
  let numerator := xdiv (xexp (xsub (xmul a (xlog z)) z)) (tgamma a) in
  let denominator := std_max numerator (continuous_fraction_rec a z INCOMPLETE_GAMMA_RECURSSION_LIMIT) in
  if xltb (xsub denominator numerator) (XFin INCOMPLETE_GAMMA_EQUALITY_TRESHOLD) then XFin 1
  else xdiv numerator denominator.

(* stats/incomplete_gamma.hpp:134-156 *)
Definition incomplete_gamma (a z : xr) : outcome xr :=
  if xisnan a || xisnan z then Ok XNaN
  else if xltb a (XFin 0) then Ok XNaN
  else if xgtb (XFin epsilon) z then Ok (XFin 0)
  else if xgtb (XFin epsilon) a then Ok (XFin 1)
  else if xltb a (XFin 10) then Ok (incomplete_gamma_continuous_fraction a z)
  else incomplete_gamma_quadrature a z.

(* std::isinf *)
Definition xisinf (x : xr) : bool := match x with XPos | XNeg => true | _ => false end.
Definition xeqb (x y : xr) : bool := match x, y with XFin a, XFin b => Reqb a b | XPos, XPos | XNeg, XNeg => true | _, _ => false end.
(* stats/chi_squared.hpp:29-67: chi_squared_cdf_unsafe, chi_squared_cdf_safe and the two overloads of chi_squared_cdf *)
Definition chi_squared_cdf (x degrees_of_freedom : xr) : outcome xr :=
  if xisnan x || xltb x (XFin 0) then Ok XNaN
  else if xeqb degrees_of_freedom (XFin 0) then Ok (XFin 1)
  else if xgtb (XFin epsilon) x then Ok (XFin 0)
  else if xisinf x then Ok (XFin 1)
  else incomplete_gamma (xmul (XFin (/ 2)) degrees_of_freedom) (xmul (XFin (/ 2)) x).
(* stats/chi_squared.hpp:69-72 *)
Definition chi_squared_cdf_deviation (deviation variance : xr) (degrees_of_freedom : nat) : outcome xr :=
  chi_squared_cdf (xdiv (xmul deviation deviation) variance) (XFin (INR degrees_of_freedom)).
End IncompleteGamma.
