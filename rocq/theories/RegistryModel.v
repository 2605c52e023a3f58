(** Model of the registries of the package: distribution types, parameter validators, distribution
    descriptors, sample generators, statistic classes and the functions that look them up.

    Sources: distribution/distribution_type.py, distribution/validator.py, distribution/distributions.py,
    generator/model.py, generator/generators.py, utils/distribution.py, utils/generator.py,
    utils/statistic.py, the [code]/[short_code]/[distribution]/[alternative] methods of
    statistics/goodness_of_fit/*.py. *)
From Coq Require Import String Ascii.
From Verif Require Import Base DecModel.
Local Open Scope string_scope.

(** ** distribution_type.py:27-55 *)
Inductive distribution_type :=
  | NORMAL | EXPONENTIAL | WEIBULL | UNIFORM | STUDENT | GAMMA | BETA | LOG_NORMAL | CAUCHY | CHI_2
  | GOMPERTZ | GUMBEL | INV_GAUSS | LAPLACE | LO_CON_NORMAL | LOGISTIC | MIX_CON_NORMAL | RICE
  | SCALE_CON_NORMAL | TRUNC_NORMAL | TUKEY.
Definition all_types : list distribution_type :=
  [NORMAL; EXPONENTIAL; WEIBULL; UNIFORM; STUDENT; GAMMA; BETA; LOG_NORMAL; CAUCHY; CHI_2; GOMPERTZ;
   GUMBEL; INV_GAUSS; LAPLACE; LO_CON_NORMAL; LOGISTIC; MIX_CON_NORMAL; RICE; SCALE_CON_NORMAL;
   TRUNC_NORMAL; TUKEY].
Definition type_dec (a b : distribution_type) : {a = b} + {a <> b}.
Proof. decide equality. Defined.
Definition type_eqb (a b : distribution_type) : bool := if type_dec a b then true else false.
(** the member names, as they appear in [str(member)] of a plain Enum *)
Definition type_name (t : distribution_type) : string :=
  match t with
  | NORMAL => "NORMAL" | EXPONENTIAL => "EXPONENTIAL" | WEIBULL => "WEIBULL" | UNIFORM => "UNIFORM"
  | STUDENT => "STUDENT" | GAMMA => "GAMMA" | BETA => "BETA" | LOG_NORMAL => "LOG_NORMAL"
  | CAUCHY => "CAUCHY" | CHI_2 => "CHI_2" | GOMPERTZ => "GOMPERTZ" | GUMBEL => "GUMBEL"
  | INV_GAUSS => "INV_GAUSS" | LAPLACE => "LAPLACE" | LO_CON_NORMAL => "LO_CON_NORMAL"
  | LOGISTIC => "LOGISTIC" | MIX_CON_NORMAL => "MIX_CON_NORMAL" | RICE => "RICE"
  | SCALE_CON_NORMAL => "SCALE_CON_NORMAL" | TRUNC_NORMAL => "TRUNC_NORMAL" | TUKEY => "TUKEY"
  end.
Definition type_str (t : distribution_type) : string := "DistributionType." ++ type_name t.

(** ** validator.py:43-58 (Positive), 60-75 (NonNegative), 77-94 (Probability) *)
Inductive validator := PositiveNumber | NonNegativeNumber | Probability.
Definition validate (v : validator) (value : R) : bool :=
  match v with
  | PositiveNumber => Rltb 0 value
  | NonNegativeNumber => Rleb 0 value
  | Probability => Rleb 0 value && Rleb value 1
  end.

(** ** distributions.py: parameter descriptors.  [p_documented] is the condition written at the end of
    the description text ("... > 0", ">= 0", "0 <= p <= 1"), [None] when the text states none. *)
Record parameter := Par { p_name : string; p_default : R; p_validator : option validator; p_documented : option validator }.
Record descriptor := Desc { d_type : distribution_type; d_params : list parameter }.
Definition free (name : string) (default : R) := Par name default None None.
Definition pos (name : string) (default : R) := Par name default (Some PositiveNumber) (Some PositiveNumber).
Definition prob (name : string) (default : R) := Par name default (Some Probability) (Some Probability).
Definition descriptors : list descriptor := [
  Desc NORMAL [free "mean" 0; pos "var" 1];                              (* 69-74 *)
  Desc EXPONENTIAL [pos "lam" 1];                                        (* 98-102 *)
  Desc WEIBULL [pos "a" 1; pos "k" 5];                                   (* 126-129 *)
  Desc UNIFORM [free "a" 0; free "b" 1];                                 (* 153-156 *)
  Desc STUDENT [pos "df" 2];                                             (* 180-184 *)
  Desc GAMMA [pos "alfa" 1; pos "beta" 1];                               (* 208-215 *)
  Desc BETA [pos "a" 1; pos "b" 1];                                      (* 239-246 *)
  Desc LOG_NORMAL [free "mean" 0; pos "var" 1];                          (* 270-275 *)
  Desc CAUCHY [free "t" 0.5; pos "s" 0.5];                               (* 299-304 *)
  Desc CHI_2 [pos "df" 2];                                               (* 328-332 *)
  Desc GOMPERTZ [pos "eta" 1; pos "b" 1];                                (* 356-361 *)
  Desc GUMBEL [free "mu" 0; pos "beta" 1];                               (* 385-390 *)
  Desc INV_GAUSS [pos "mu" 0; pos "lam" 1];                              (* 414-419 *)
  Desc LAPLACE [free "t" 0; pos "s" 1];                                  (* 443-446 *)
  Desc LO_CON_NORMAL [prob "p" 0.5; free "a" 0];                         (* 470-481 *)
  Desc MIX_CON_NORMAL [prob "p" 0.5; free "a" 0; pos "b" 1];             (* 505-524 *)
  Desc SCALE_CON_NORMAL [prob "p" 0.5; pos "b" 1];                       (* 548-564 *)
  Desc TRUNC_NORMAL [free "mean" 0; pos "var" 1; free "a" (-10); free "b" 10];  (* 588-595 *)
  Desc LOGISTIC [free "t" 0; pos "s" 1];                                 (* 619-622 *)
  Desc RICE [Par "nu" 0 None (Some NonNegativeNumber);
             Par "sigma" 1 (Some NonNegativeNumber) (Some NonNegativeNumber)];  (* 646-657 *)
  Desc TUKEY [free "lam" 2]                                              (* 681-683 *)
].
(** the callable stored in the descriptor; no validator accepts everything *)
Definition accepts (p : parameter) (value : R) : bool :=
  match p_validator p with None => true | Some v => validate v value end.
(** utils/distribution.py:9-14 over the classes in the order [order] in which Python visits them *)
Definition get_descriptor (order : list descriptor) (t : distribution_type) : result descriptor :=
  match find (fun d => type_eqb (d_type d) t) order with Some d => Ok d | None => Raise StopIteration end.

(** ** generators.py: constructor signatures, a parameter has a default or not *)
Record gen_class := Gen { g_type : distribution_type; g_sig : list (string * option R) }.
Definition generator_classes : list gen_class := [
  Gen BETA [("a", Some 1); ("b", Some 1)];                        (* BetaRVSGenerator *)
  Gen CAUCHY [("t", None); ("s", None)];
  Gen LAPLACE [("t", None); ("s", None)];
  Gen LOGISTIC [("t", None); ("s", None)];
  Gen STUDENT [("df", None)];
  Gen TUKEY [("lam", None)];
  Gen LOG_NORMAL [("s", Some 1); ("mu", Some 0)];
  Gen GAMMA [("alfa", Some 1); ("beta", Some 1)];
  Gen TRUNC_NORMAL [("mean", Some 0); ("var", Some 1); ("a", Some (-10)); ("b", Some 10)];
  Gen CHI_2 [("df", Some 2)];
  Gen GUMBEL [("mu", Some 0); ("beta", Some 1)];
  Gen WEIBULL [("a", Some 1); ("k", Some 5)];
  Gen LO_CON_NORMAL [("p", Some 0.5); ("a", Some 0)];
  Gen SCALE_CON_NORMAL [("p", Some 0.5); ("b", Some 1)];
  Gen MIX_CON_NORMAL [("p", Some 0.5); ("a", Some 0); ("b", Some 1)];
  Gen EXPONENTIAL [("lam", Some 0.5)];
  Gen INV_GAUSS [("mu", Some 0); ("lam", Some 1)];
  Gen RICE [("nu", Some 0); ("sigma", Some 1)];
  Gen GOMPERTZ [("eta", Some 0); ("b", Some 1)];
  Gen NORMAL [("mean", Some 0); ("var", Some 1)];
  Gen UNIFORM [("a", Some 0); ("b", Some 1)]
].
(** an instance: its class and the dictionary returned by [parameters()] *)
Record generator := Instance { i_type : distribution_type; i_params : list (string * R) }.
Definition dict_get (d : list (string * R)) (k : string) : option R :=
  option_map snd (find (fun kv => String.eqb (fst kv) k) d).
(** [cls( **params )]: every constructor ends in [**kwargs], which generator/model.py:23-25 ignores *)
Fixpoint bind_args (sg : list (string * option R)) (params : list (string * R)) : result (list (string * R)) :=
  match sg with
  | [] => Ok []
  | (name, default) :: sg' =>
    match dict_get params name, default with
    | Some v, _ | None, Some v => let! rest := bind_args sg' params in Ok ((name, v) :: rest)
    | None, None => Raise TypeError
    end
  end.
Definition construct (g : gen_class) (params : list (string * R)) : result generator :=
  let! ps := bind_args (g_sig g) params in Ok (Instance (g_type g) ps).
(** utils/generator.py:11-30; [order] is the iteration order of the set of classes; [params] is [None]
    or a dictionary *)
Definition get_available_generator (order : list gen_class) (t : distribution_type)
    (params : option (list (string * R))) : result generator :=
  match find (fun g => type_eqb (g_type g) t) order with
  | Some g => construct g (match params with Some d => d | None => [] end)
  | None => Raise StopIteration
  end.
(** generator/model.py:62-76 and the [code] methods: [str] of the type and of the parameter values,
    joined by underscores; [texts] are the [str] of the values *)
Fixpoint join (sep : string) (l : list string) : string :=
  match l with [] => "" | [x] => x | x :: l' => x ++ sep ++ join sep l' end.
Definition generator_code (t : distribution_type) (texts : list string) : string :=
  join "_" (type_str t :: texts).

(** ** Statistic classes *)
(** alternative() of the class: constant, or a constructor argument with a default *)
Inductive alternative_decl := Fixed (a : alternative) | Argument (default : alternative).
Record stat_class := StatClass {
  sc_name : string; sc_dist : distribution_type; sc_short : string; sc_code : string; sc_alt : alternative_decl }.
(** statistic.py:82 and the [code] of the abstract class of each family *)
Definition gof_code := "GOODNESS_OF_FIT".
Definition normality_base := "NORMALITY_" ++ gof_code.            (* normal.py:60 *)
Definition exponentiality_base := "EXPONENTIALITY_" ++ gof_code.
Definition weibull_base := "WEIBULL_" ++ gof_code.
Definition uniform_base := "UNIFORM_" ++ gof_code.
Definition gamma_base := "GAMMA_" ++ gof_code.
Definition beta_base := "BETA_" ++ gof_code.
Definition student_base := "STUDENT_" ++ gof_code.
Definition lognormal_base := "LOGNORMAL_" ++ gof_code.
Definition graph_base (parent : string) := "GRAPH_" ++ parent.
(** every concrete [code] is f"{short_code}_{base}" *)
Definition stat (name : string) (d : distribution_type) (short base : string) (a : alternative_decl) : stat_class :=
  StatClass name d short (short ++ "_" ++ base) a.
(** normal.py, one row per concrete class, with the line of its definition *)
Definition normal_classes : list stat_class := [
  stat "KolmogorovSmirnovNormalityGofStatistic" NORMAL "KS" normality_base (Argument TWO_TAILED) (* 62 *);
  stat "AndersonDarlingNormalityGofStatistic" NORMAL "AD" normality_base (Fixed RIGHT) (* 117 *);
  stat "ShapiroWilkNormalityGofStatistic" NORMAL "SW" normality_base (Fixed LEFT) (* 140 *);
  stat "CramerVonMiseNormalityGofStatistic" NORMAL "CVM" gof_code (Fixed RIGHT) (* 207 *);
  stat "LillieforsNormalityGofStatistic" NORMAL "LILLIE" normality_base (Fixed TWO_TAILED) (* 228 *);
  stat "JBNormalityGofStatistic" NORMAL "JB" normality_base (Fixed RIGHT) (* 273 *);
  stat "SkewNormalityGofStatistic" NORMAL "SKEW" normality_base (Fixed RIGHT) (* 307 *);
  stat "KurtosisNormalityGofStatistic" NORMAL "KURTOSIS" normality_base (Fixed RIGHT) (* 355 *);
  stat "DAPNormalityGofStatistic" NORMAL "DAP" normality_base (Fixed RIGHT) (* 420 *);
  stat "FilliNormalityGofStatistic" NORMAL "FILLI" normality_base (Fixed LEFT) (* 444 *);
  stat "LooneyGulledgeNormalityGofStatistic" NORMAL "LG" normality_base (Fixed LEFT) (* 489 *);
  stat "RyanJoinerNormalityGofStatistic" NORMAL "RJ" normality_base (Fixed LEFT) (* 554 *);
  stat "SFNormalityGofStatistic" NORMAL "SF" normality_base (Fixed LEFT) (* 631 *);
  stat "EppsPulleyNormalityGofStatistic" NORMAL "EP" normality_base (Fixed RIGHT) (* 662 *);
  stat "Hosking2NormalityGofStatistic" NORMAL "HOSKING2" normality_base (Fixed TWO_TAILED) (* 694 *);
  stat "Hosking1NormalityGofStatistic" NORMAL "HOSKING1" normality_base (Fixed TWO_TAILED) (* 757 *);
  stat "Hosking3NormalityGofStatistic" NORMAL "HOSKING3" normality_base (Fixed TWO_TAILED) (* 818 *);
  stat "Hosking4NormalityGofStatistic" NORMAL "HOSKING4" normality_base (Fixed TWO_TAILED) (* 886 *);
  stat "ZhangWuCNormalityGofStatistic" NORMAL "ZWC" normality_base (Fixed RIGHT) (* 954 *);
  stat "ZhangWuANormalityGofStatistic" NORMAL "ZWA" normality_base (Fixed RIGHT) (* 988 *);
  stat "GlenLeemisBarrNormalityGofStatistic" NORMAL "GLB" normality_base (Fixed RIGHT) (* 1026 *);
  stat "DoornikHansenNormalityGofStatistic" NORMAL "DH" normality_base (Fixed RIGHT) (* 1065 *);
  stat "RobustJarqueBeraNormalityGofStatistic" NORMAL "RJB" normality_base (Fixed RIGHT) (* 1129 *);
  stat "BontempsMeddahi1NormalityGofStatistic" NORMAL "BM1" normality_base (Fixed RIGHT) (* 1158 *);
  stat "BontempsMeddahi2NormalityGofStatistic" NORMAL "BM2" normality_base (Fixed RIGHT) (* 1205 *);
  stat "BonettSeierNormalityGofStatistic" NORMAL "BS" normality_base (Fixed TWO_TAILED) (* 1244 *);
  stat "MartinezIglewiczNormalityGofStatistic" NORMAL "MI" normality_base (Fixed RIGHT) (* 1289 *);
  stat "CabanaCabana1NormalityGofStatistic" NORMAL "CC1" normality_base (Fixed RIGHT) (* 1340 *);
  stat "CabanaCabana2NormalityGofStatistic" NORMAL "CC2" normality_base (Fixed RIGHT) (* 1396 *);
  stat "ChenShapiroNormalityGofStatistic" NORMAL "CS" normality_base (Fixed RIGHT) (* 1505 *);
  stat "ZhangQNormalityGofStatistic" NORMAL "ZQ" normality_base (Fixed RIGHT) (* 1539 *);
  stat "CoinNormalityGofStatistic" NORMAL "COIN" normality_base (Fixed RIGHT) (* 1589 *);
  stat "DagostinoNormalityGofStatistic" NORMAL "D" normality_base (Fixed TWO_TAILED) (* 1728 *);
  stat "ZhangQStarNormalityGofStatistic" NORMAL "ZQS" normality_base (Fixed RIGHT) (* 1758 *);
  stat "SWRGNormalityGofStatistic" NORMAL "SWRG" normality_base (Fixed RIGHT) (* 1855 *);
  stat "GMGNormalityGofStatistic" NORMAL "GMG" normality_base (Fixed RIGHT) (* 1895 *);
  stat "BHSNormalityGofStatistic" NORMAL "BHS" normality_base (Fixed RIGHT) (* 1966 *);
  stat "SpiegelhalterNormalityGofStatistic" NORMAL "SH" normality_base (Fixed TWO_TAILED) (* 2309 *);
  stat "DesgagneLafayeNormalityGofStatistic" NORMAL "DLDMZEPD" normality_base (Fixed RIGHT) (* 2367 *);
  stat "GraphEdgesNumberNormalityGofStatistic" NORMAL "EDGESNUMBER" (graph_base normality_base) (Fixed TWO_TAILED) (* 2447 *);
  stat "GraphMaxDegreeNormalityGofStatistic" NORMAL "MAXDEGREE" (graph_base normality_base) (Fixed TWO_TAILED) (* 2458 *);
  stat "GraphAverageDegreeNormalityGofStatistic" NORMAL "AVGDEGREE" (graph_base normality_base) (Fixed TWO_TAILED) (* 2469 *);
  stat "GraphConnectedComponentsNormalityGofStatistic" NORMAL "CONNECTEDCOMPONENTS" (graph_base normality_base) (Fixed TWO_TAILED) (* 2480 *);
  stat "GraphCliqueNumberNormalityGofStatistic" NORMAL "CLIQUENUMBER" (graph_base normality_base) (Fixed TWO_TAILED) (* 2491 *);
  stat "GraphIndependenceNumberNormalityGofStatistic" NORMAL "INDEPENDENCENUMBER" (graph_base normality_base) (Fixed TWO_TAILED) (* 2502 *)
].
(** exponent.py, one row per concrete class, with the line of its definition *)
Definition exponent_classes : list stat_class := [
  stat "EppsPulleyExponentialityGofStatistic" EXPONENTIAL "EP" exponentiality_base (Fixed RIGHT) (* 68 *);
  stat "KolmogorovSmirnovExponentialityGofStatistic" EXPONENTIAL "KS" exponentiality_base (Argument TWO_TAILED) (* 116 *);
  stat "AhsanullahExponentialityGofStatistic" EXPONENTIAL "AHS" exponentiality_base (Fixed RIGHT) (* 162 *);
  stat "AtkinsonExponentialityGofStatistic" EXPONENTIAL "ATK" exponentiality_base (Fixed RIGHT) (* 219 *);
  stat "CoxOakesExponentialityGofStatistic" EXPONENTIAL "CO" exponentiality_base (Fixed TWO_TAILED) (* 271 *);
  stat "CramerVonMisesExponentialityGofStatistic" EXPONENTIAL "CVM" exponentiality_base (Fixed RIGHT) (* 321 *);
  stat "DeshpandeExponentialityGofStatistic" EXPONENTIAL "DSP" exponentiality_base (Fixed RIGHT) (* 367 *);
  stat "EpsteinExponentialityGofStatistic" EXPONENTIAL "EPS" exponentiality_base (Fixed TWO_TAILED) (* 420 *);
  stat "FroziniExponentialityGofStatistic" EXPONENTIAL "FZ" exponentiality_base (Fixed RIGHT) (* 470 *);
  stat "GiniExponentialityGofStatistic" EXPONENTIAL "GINI" exponentiality_base (Fixed TWO_TAILED) (* 522 *);
  stat "GnedenkoExponentialityGofStatistic" EXPONENTIAL "GD" exponentiality_base (Fixed RIGHT) (* 574 *);
  stat "HarrisExponentialityGofStatistic" EXPONENTIAL "HM" exponentiality_base (Fixed RIGHT) (* 626 *);
  stat "HegazyGreen1ExponentialityGofStatistic" EXPONENTIAL "HG1" exponentiality_base (Fixed LEFT) (* 678 *);
  stat "HollanderProshanExponentialityGofStatistic" EXPONENTIAL "HP" exponentiality_base (Fixed RIGHT) (* 728 *);
  stat "KimberMichaelExponentialityGofStatistic" EXPONENTIAL "KM" exponentiality_base (Fixed LEFT) (* 781 *);
  stat "KocharExponentialityGofStatistic" EXPONENTIAL "KC" exponentiality_base (Fixed RIGHT) (* 832 *);
  stat "LorenzExponentialityGofStatistic" EXPONENTIAL "LZ" exponentiality_base (Fixed RIGHT) (* 882 *);
  stat "MoranExponentialityGofStatistic" EXPONENTIAL "MN" exponentiality_base (Fixed RIGHT) (* 931 *);
  stat "PietraExponentialityGofStatistic" EXPONENTIAL "PT" exponentiality_base (Fixed TWO_TAILED) (* 979 *);
  stat "ShapiroWilkExponentialityGofStatistic" EXPONENTIAL "SW" exponentiality_base (Fixed LEFT) (* 1027 *);
  stat "RossbergExponentialityGofStatistic" EXPONENTIAL "RS" exponentiality_base (Fixed RIGHT) (* 1076 *);
  stat "WeExponentialityGofStatistic" EXPONENTIAL "WE" exponentiality_base (Fixed RIGHT) (* 1150 *);
  stat "WongWongExponentialityGofStatistic" EXPONENTIAL "WW" exponentiality_base (Fixed RIGHT) (* 1199 *);
  stat "HegazyGreen2ExponentialityGofStatistic" EXPONENTIAL "HG2" exponentiality_base (Fixed LEFT) (* 1246 *);
  stat "GraphEdgesNumberExponentialityGofStatistic" EXPONENTIAL "EDGESNUMBER" (graph_base exponentiality_base) (Fixed TWO_TAILED) (* 1334 *);
  stat "GraphMaxDegreeExponentialityGofStatistic" EXPONENTIAL "MAXDEGREE" (graph_base exponentiality_base) (Fixed TWO_TAILED) (* 1356 *);
  stat "GraphAverageDegreeExponentialityGofStatistic" EXPONENTIAL "AVGDEGREE" (graph_base exponentiality_base) (Fixed TWO_TAILED) (* 1378 *);
  stat "GraphConnectedComponentsExponentialityGofStatistic" EXPONENTIAL "CONNECTEDCOMPONENTS" (graph_base exponentiality_base) (Fixed TWO_TAILED) (* 1400 *);
  stat "GraphCliqueNumberExponentialityGofStatistic" EXPONENTIAL "CLIQUENUMBER" (graph_base exponentiality_base) (Fixed TWO_TAILED) (* 1422 *);
  stat "GraphIndependenceNumberExponentialityGofStatistic" EXPONENTIAL "INDEPENDENCENUMBER" (graph_base exponentiality_base) (Fixed TWO_TAILED) (* 1444 *)
].
(** weibull.py, one row per concrete class, with the line of its definition *)
Definition weibull_classes : list stat_class := [
  stat "MinToshiyukiWeibullGofStatistic" WEIBULL "MT" weibull_base (Fixed TWO_TAILED) (* 65 *);
  stat "Chi2PearsonWeibullGofStatistic" WEIBULL "CHI2_PEARSON" weibull_base (Fixed RIGHT) (* 104 *);
  stat "LillieforsWeibullGofStatistic" WEIBULL "LILLIE" weibull_base (Fixed TWO_TAILED) (* 147 *);
  stat "CrammerVonMisesWeibullGofStatistic" WEIBULL "CVM" weibull_base (Fixed RIGHT) (* 186 *);
  stat "AndersonDarlingWeibullGofStatistic" WEIBULL "AD" weibull_base (Fixed RIGHT) (* 224 *);
  stat "KolmogorovSmirnovWeibullGofStatistic" WEIBULL "KS" weibull_base (Argument TWO_TAILED) (* 268 *);
  stat "SbWeibullGofStatistic" WEIBULL "SB" weibull_base (Fixed LEFT) (* 317 *);
  stat "ST2WeibullGofStatistic" WEIBULL "ST2" weibull_base (Fixed RIGHT) (* 374 *);
  stat "ST1WeibullGofStatistic" WEIBULL "ST1" weibull_base (Fixed RIGHT) (* 426 *);
  stat "RSBWeibullGofStatistic" WEIBULL "RSB" weibull_base (Fixed RIGHT) (* 478 *);
  stat "TikuSinghWeibullGofStatistic" WEIBULL "TS" weibull_base (Fixed RIGHT) (* 623 *);
  stat "LOSWeibullGofStatistic" WEIBULL "LOS" weibull_base (Fixed RIGHT) (* 661 *);
  stat "MSFWeibullGofStatistic" WEIBULL "MSF" weibull_base (Fixed RIGHT) (* 700 *);
  stat "OKWeibullGofStatistic" WEIBULL "OK" weibull_base (Fixed RIGHT) (* 866 *);
  stat "SBWeibullGofStatistic" WEIBULL "SB" weibull_base (Fixed LEFT) (* 910 *);
  stat "REJGWeibullGofStatistic" WEIBULL "REJG" weibull_base (Fixed LEFT) (* 954 *);
  stat "SPPWeibullGofStatistic" WEIBULL "SPP" weibull_base (Fixed LEFT) (* 996 *);
  stat "MahdiDoostparastWeibullGofStatistic" WEIBULL "MD" weibull_base (Fixed RIGHT) (* 1041 *);
  stat "WatsonWeibullGofStatistic" WEIBULL "W" weibull_base (Fixed RIGHT) (* 1098 *);
  stat "LiaoShimokawaWeibullGofStatistic" WEIBULL "LS" weibull_base (Fixed RIGHT) (* 1148 *);
  stat "KullbackLeiblerWeibullGofStatistic" WEIBULL "KL" weibull_base (Fixed RIGHT) (* 1206 *);
  stat "LaplaceTransform2WeibullGofStatistic" WEIBULL "LT2" weibull_base (Fixed RIGHT) (* 1311 *);
  stat "LaplaceTransform3WeibullGofStatistic" WEIBULL "LT3" weibull_base (Fixed RIGHT) (* 1354 *);
  stat "CabanaQuirozWeibullGofStatistic" WEIBULL "CQ*" weibull_base (Fixed RIGHT) (* 1397 *)
].
(** uniform.py, one row per concrete class, with the line of its definition *)
Definition uniform_classes : list stat_class := [
  stat "KolmogorovSmirnovUniformGofStatistic" UNIFORM "KS" uniform_base (Argument TWO_TAILED) (* 71 *);
  stat "AndersonDarlingUniformGofStatistic" UNIFORM "AD" uniform_base (Fixed RIGHT) (* 118 *);
  stat "CrammerVonMisesUniformGofStatistic" UNIFORM "CVM" uniform_base (Fixed RIGHT) (* 160 *);
  stat "LillieforsTestUniformGofStatistic" UNIFORM "LILLIE" uniform_base (Fixed TWO_TAILED) (* 201 *);
  stat "Chi2PearsonUniformGofStatistic" UNIFORM "CHI2_PEARSON" uniform_base (Fixed RIGHT) (* 242 *);
  stat "WatsonUniformGofStatistic" UNIFORM "WATSON" uniform_base (Fixed RIGHT) (* 305 *);
  stat "KuiperUniformGofStatistic" UNIFORM "KUIPER" uniform_base (Fixed RIGHT) (* 360 *);
  stat "GreenwoodTestUniformGofStatistic" UNIFORM "GREENWOOD" uniform_base (Fixed RIGHT) (* 420 *);
  stat "BickelRosenblattUniformGofStatistic" UNIFORM "BICKEL_ROSENBLATT" uniform_base (Fixed RIGHT) (* 470 *);
  stat "ZhangTestsUniformGofStatistic" UNIFORM "ZHANG" uniform_base (Fixed RIGHT) (* 536 *);
  stat "SteinUniformGofStatistic" UNIFORM "STEIN_U" uniform_base (Fixed RIGHT) (* 607 *);
  stat "CensoredSteinUniformGofStatistic" UNIFORM "CENSORED_STEIN_U" uniform_base (Fixed RIGHT) (* 681 *);
  stat "NeymanSmoothTestUniformGofStatistic" UNIFORM "NEYMAN" uniform_base (Fixed RIGHT) (* 797 *);
  stat "ShermanUniformGofStatistic" UNIFORM "SHERMAN" uniform_base (Fixed RIGHT) (* 867 *);
  stat "QuesenberryMillerUniformGofStatistic" UNIFORM "QUESENBERRY_MILLER" uniform_base (Fixed RIGHT) (* 920 *)
].
(** gamma.py, one row per concrete class, with the line of its definition *)
Definition gamma_classes : list stat_class := [
  stat "KolmogorovSmirnovGammaGofStatistic" GAMMA "KS" gamma_base (Argument TWO_TAILED) (* 83 *);
  stat "LillieforsGammaGofStatistic" GAMMA "LILLIE" gamma_base (Fixed TWO_TAILED) (* 137 *);
  stat "AndersonDarlingGammaGofStatistic" GAMMA "AD" gamma_base (Fixed RIGHT) (* 195 *);
  stat "CramerVonMisesGammaGofStatistic" GAMMA "CVM" gamma_base (Fixed RIGHT) (* 239 *);
  stat "WatsonGammaGofStatistic" GAMMA "WAT" gamma_base (Fixed RIGHT) (* 282 *);
  stat "KuiperGammaGofStatistic" GAMMA "KUI" gamma_base (Fixed RIGHT) (* 340 *);
  stat "GreenwoodGammaGofStatistic" GAMMA "GRW" gamma_base (Fixed RIGHT) (* 398 *);
  stat "MoranGammaGofStatistic" GAMMA "MOR" gamma_base (Fixed RIGHT) (* 450 *);
  stat "MinToshiyukiGammaGofStatistic" GAMMA "MT" gamma_base (Fixed TWO_TAILED) (* 507 *);
  stat "Chi2PearsonGammaGofStatistic" GAMMA "CHI2_PEARSON" gamma_base (Fixed RIGHT) (* 597 *);
  stat "LikelihoodRatioGammaGofStatistic" GAMMA "G_TEST" gamma_base (Fixed RIGHT) (* 640 *);
  stat "CressieReadGammaGofStatistic" GAMMA "CRESSIE_READ" gamma_base (Fixed RIGHT) (* 683 *);
  stat "ProbabilityPlotCorrelationGammaGofStatistic" GAMMA "PPCC" gamma_base (Fixed LEFT) (* 734 *);
  stat "GraphEdgesNumberGammaGofStatistic" GAMMA "EDGESNUMBER" (graph_base gamma_base) (Fixed TWO_TAILED) (* 849 *);
  stat "GraphMaxDegreeGammaGofStatistic" GAMMA "MAXDEGREE" (graph_base gamma_base) (Fixed TWO_TAILED) (* 872 *);
  stat "GraphAverageDegreeGammaGofStatistic" GAMMA "AVGDEGREE" (graph_base gamma_base) (Fixed TWO_TAILED) (* 893 *);
  stat "GraphConnectedComponentsGammaGofStatistic" GAMMA "CONNECTEDCOMPONENTS" (graph_base gamma_base) (Fixed TWO_TAILED) (* 916 *);
  stat "GraphCliqueNumberGammaGofStatistic" GAMMA "CLIQUENUMBER" (graph_base gamma_base) (Fixed TWO_TAILED) (* 939 *);
  stat "GraphIndependenceNumberGammaGofStatistic" GAMMA "INDEPENDENCENUMBER" (graph_base gamma_base) (Fixed TWO_TAILED) (* 965 *)
].
(** beta.py, one row per concrete class, with the line of its definition *)
Definition beta_classes : list stat_class := [
  stat "KolmogorovSmirnovBetaGofStatistic" BETA "KS" beta_base (Argument TWO_TAILED) (* 69 *);
  stat "AndersonDarlingBetaGofStatistic" BETA "AD" beta_base (Fixed RIGHT) (* 127 *);
  stat "CrammerVonMisesBetaGofStatistic" BETA "CVM" beta_base (Fixed RIGHT) (* 174 *);
  stat "LillieforsTestBetaGofStatistic" BETA "LILLIE" beta_base (Fixed TWO_TAILED) (* 218 *);
  stat "Chi2PearsonBetaGofStatistic" BETA "CHI2_PEARSON" beta_base (Fixed RIGHT) (* 262 *);
  stat "WatsonBetaGofStatistic" BETA "W" beta_base (Fixed RIGHT) (* 322 *);
  stat "KuiperBetaGofStatistic" BETA "KUIPER" beta_base (Fixed RIGHT) (* 380 *);
  stat "MomentBasedBetaGofStatistic" BETA "MB" beta_base (Fixed RIGHT) (* 437 *);
  stat "SkewnessKurtosisBetaGofStatistic" BETA "SK" beta_base (Fixed RIGHT) (* 501 *);
  stat "RatioBetaGofStatistic" BETA "RT" beta_base (Fixed RIGHT) (* 577 *);
  stat "EntropyBetaGofStatistic" BETA "ENT" beta_base (Fixed RIGHT) (* 648 *);
  stat "ModeBetaGofStatistic" BETA "MODE" beta_base (Fixed RIGHT) (* 724 *)
].
(** student.py, one row per concrete class, with the line of its definition *)
Definition student_classes : list stat_class := [
  stat "KolmogorovSmirnovStudentGofStatistic" STUDENT "KS" student_base (Argument TWO_TAILED) (* 69 *);
  stat "AndersonDarlingStudentGofStatistic" STUDENT "AD" student_base (Fixed RIGHT) (* 120 *);
  stat "CramerVonMisesStudentGofStatistic" STUDENT "CVM" student_base (Fixed RIGHT) (* 162 *);
  stat "KuiperStudentGofStatistic" STUDENT "KUIPER" student_base (Fixed RIGHT) (* 203 *);
  stat "WatsonStudentGofStatistic" STUDENT "WATSON" student_base (Fixed RIGHT) (* 254 *);
  stat "ZhangZcStudentGofStatistic" STUDENT "ZHANG_ZC" student_base (Fixed RIGHT) (* 311 *);
  stat "ZhangZaStudentGofStatistic" STUDENT "ZHANG_ZA" student_base (Fixed RIGHT) (* 366 *);
  stat "LillieforsStudentGofStatistic" STUDENT "LILLIE" student_base (Fixed TWO_TAILED) (* 417 *);
  stat "ChiSquareStudentGofStatistic" STUDENT "CHI2" student_base (Fixed RIGHT) (* 462 *)
].
(** log_normal.py, one row per concrete class, with the line of its definition *)
Definition log_normal_classes : list stat_class := [
  stat "KolmogorovSmirnovLogNormalGofStatistic" LOG_NORMAL "KS" lognormal_base (Argument TWO_TAILED) (* 64 *);
  stat "CramerVonMiseLogNormalGofStatistic" LOG_NORMAL "CVM" lognormal_base (Fixed RIGHT) (* 114 *);
  stat "QuesenberryMillerLogNormalGofStatistic" LOG_NORMAL "QUESENBERRY_MILLER" lognormal_base (Fixed RIGHT) (* 153 *);
  stat "KLSupremumLogNormalGoFStatistic" LOG_NORMAL "KL_SUP" lognormal_base (Fixed RIGHT) (* 212 *);
  stat "KLIntegralLogNormalGoFStatistic" LOG_NORMAL "KL_INT" lognormal_base (Fixed RIGHT) (* 340 *)
].

(** ** log_normal.py:478-563: a class is generated for every normality statistic *)
Fixpoint strip_prefix (p s : string) : option string :=
  match p, s with
  | "", _ => Some s
  | String a p', String b s' => if Ascii.eqb a b then strip_prefix p' s' else None
  | _, _ => None
  end.
Definition startswith (s p : string) : bool := match strip_prefix p s with Some _ => true | None => false end.
(** [str.replace] for a non-empty [old]; [fuel] bounds the number of characters visited *)
Fixpoint replace_fuel (fuel : nat) (old new s : string) : string :=
  match fuel, s with
  | O, _ | _, "" => s
  | S fuel', String c s' =>
    match strip_prefix old s with
    | Some rest => new ++ replace_fuel fuel' old new rest
    | None => String c (replace_fuel fuel' old new s')
    end
  end.
Definition py_replace (s old new : string) : string := replace_fuel (String.length s) old new s.
Definition explicitly_implemented : list string := [
  "KolmogorovSmirnovNormalityGofStatistic"; "CramerVonMiseNormalityGofStatistic";
  "QuesenberryMillerNormalityGofStatistic"; "KLSupremumLogNormalGoFStatistic";
  "KLIntegralLogNormalGoFStatistic"; "BHSNormalityGofStatistic"].
Definition derivable (c : stat_class) : bool :=
  negb (existsb (String.eqb (sc_name c)) explicitly_implemented)
  && negb (startswith (sc_name c) "Abstract") && negb (startswith (sc_name c) "Graph").
Definition create_lognormal_class (c : stat_class) : stat_class :=
  StatClass (py_replace (sc_name c) "Normality" "LogNormal") LOG_NORMAL (sc_short c)
            (py_replace (sc_code c) "NORMALITY" "LOGNORMAL") (sc_alt c).
Definition derived_lognormal_classes : list stat_class := map create_lognormal_class (filter derivable normal_classes).

(** all concrete subclasses once statistics/goodness_of_fit has been imported *)
Definition stat_classes : list stat_class :=
  normal_classes ++ exponent_classes ++ weibull_classes ++ uniform_classes ++ gamma_classes ++ beta_classes
  ++ student_classes ++ log_normal_classes ++ derived_lognormal_classes.
(** utils/statistic.py:8-27; [loaded] lists the concrete subclasses known to the interpreter, in the
    iteration order of the set.  Importing utils/statistic.py loads none of them: neither
    pysatl_criterion/__init__.py nor statistics/__init__.py imports statistics/goodness_of_fit. *)
Definition get_available_criteria (loaded : list stat_class) (t : distribution_type) : list string :=
  map sc_short (filter (fun c => type_eqb (sc_dist c) t) loaded).
