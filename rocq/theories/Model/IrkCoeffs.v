(** irk.cpp: the implicit Butcher tableaux.  Every coefficient is the source expression, evaluated in the
    abstract arithmetic; a negated literal such as [-0.5] is read as a negative literal (exact in binary64). *)
From Verif Require Import Model.Base Model.Scalar Model.LinAlg Model.Enums Model.Coeffs Model.Collocation.
Local Open Scope sc_scope.
Local Open Scope mon_scope.

Section IrkCoeffs.
  Context {T : Type} `{Scalar T} `{Env T}.

  (** irk.cpp:218-221 *)
  Definition sqrt3 : T := ssqrt (slit 3 0).
  Definition sqrt6 : T := ssqrt (slit 6 0).
  Definition sqrt21 : T := ssqrt (slit 21 0).

  (** [sc.b(i)] for an index in range *)
  Definition vat (b : list T) (i : nat) : T := nth i b (sZ 0).

  (** irk.cpp:238-244, case IMPLICIT_EULER *)
  Definition irk_implicit_euler : res (solver_coeffs T) :=
    let gamma := slit 0 0 in
    let A := of_rows (sZ 0)
      [[slit 1 0]] in
    let b := [slit 1 0] in
    let c := [slit 1 0] in
    let b2 := [] in
    Ok (SolverCoeffs b c A b2 (Some 1%Z) (Some 0%Z) false gamma mat_empty).

  (** irk.cpp:246-258, case LOBATTO_IIIA_43 *)
  Definition irk_lobatto_iiia_43 : res (solver_coeffs T) :=
    let gamma := slit 0 0 in
    let A := of_rows (sZ 0)
      [[slit 0 0; slit 0 0; slit 0 0];
       [slit 5 0 /. slit 24 0; slit 1 0 /. slit 3 0; slit (-1) 0 /. slit 24 0];
       [slit 1 0 /. slit 6 0; slit 2 0 /. slit 3 0; slit 1 0 /. slit 6 0]] in
    let b := [slit 1 0 /. slit 6 0; slit 2 0 /. slit 3 0; slit 1 0 /. slit 6 0] in
    let c := [slit 0 0; slit 5 (-1); slit 1 0] in
    let b2 := [slit (-5) (-1); slit 2 0; slit (-5) (-1)] in
    Ok (SolverCoeffs b c A b2 (Some 4%Z) (Some 2%Z) true gamma mat_empty).

  (** irk.cpp:261-272, case LOBATTO_IIIC_43 *)
  Definition irk_lobatto_iiic_43 : res (solver_coeffs T) :=
    let gamma := slit 0 0 in
    let A := of_rows (sZ 0)
      [[slit 1 0 /. slit 6 0; slit (-1) 0 /. slit 3 0; slit 1 0 /. slit 6 0];
       [slit 1 0 /. slit 6 0; slit 5 0 /. slit 12 0; slit (-1) 0 /. slit 12 0];
       [slit 1 0 /. slit 6 0; slit 2 0 /. slit 3 0; slit 1 0 /. slit 6 0]] in
    let b := [slit 1 0 /. slit 6 0; slit 2 0 /. slit 3 0; slit 1 0 /. slit 6 0] in
    let c := [slit 0 0; slit 5 (-1); slit 1 0] in
    let b2 := [slit 1 0 /. slit 6 0; slit 1 0 /. slit 6 0; slit 2 0 /. slit 3 0] in
    Ok (SolverCoeffs b c A b2 (Some 4%Z) (Some 2%Z) false gamma mat_empty).

  (** irk.cpp:274-286, case LOBATTO_IIIC_64 *)
  Definition irk_lobatto_iiic_64 : res (solver_coeffs T) :=
    let gamma := slit 0 0 in
    let A := of_rows (sZ 0)
      [[slit 1 0 /. slit 12 0;
        (-. (ssqrt (slit 5 0))) /. slit 12 0;
        ssqrt (slit 5 0) /. slit 12 0;
        slit (-1) 0 /. slit 12 0];
       [slit 1 0 /. slit 12 0;
        slit 25 (-2);
        (slit 10 0 -. slit 7 0 *. ssqrt (slit 5 0)) /. slit 60 0;
        ssqrt (slit 5 0) /. slit 60 0];
       [slit 1 0 /. slit 12 0;
        (slit 10 0 +. slit 7 0 *. ssqrt (slit 5 0)) /. slit 60 0;
        slit 25 (-2);
        (-. (ssqrt (slit 5 0))) /. slit 60 0];
       [slit 1 0 /. slit 12 0; slit 5 0 /. slit 12 0; slit 5 0 /. slit 12 0; slit 1 0 /. slit 12 0]] in
    let b := [slit 1 0 /. slit 12 0;
              slit 5 0 /. slit 12 0;
              slit 5 0 /. slit 12 0;
              slit 1 0 /. slit 12 0] in
    let c := [slit 0 0;
              slit 5 (-1) -. ssqrt (slit 5 0) /. slit 10 0;
              slit 5 (-1) +. ssqrt (slit 5 0) /. slit 10 0;
              slit 1 0] in
    let b2 := [slit 1 0 /. slit 12 0;
               slit 1 0 /. slit 12 0;
               slit 5 0 /. slit 12 0;
               slit 5 0 /. slit 12 0] in
    Ok (SolverCoeffs b c A b2 (Some 6%Z) (Some 4%Z) false gamma mat_empty).

  (** irk.cpp:288-327, case LOBATTO_IIIC_85 *)
  Definition irk_lobatto_iiic_85 : res (solver_coeffs T) :=
    let gamma := slit 1894964436645163 (-16) in
    let A := of_rows (sZ 0)
      [[slit 1 0 /. slit 20 0;
        slit (-7) 0 /. slit 60 0;
        slit 2 0 /. slit 15 0;
        slit (-7) 0 /. slit 60 0;
        slit 1 0 /. slit 20 0];
       [slit 1 0 /. slit 20 0;
        slit 29 0 /. slit 180 0;
        (slit 47 0 -. slit 15 0 *. sqrt21) /. slit 315 0;
        (slit 203 0 -. slit 30 0 *. sqrt21) /. slit 1260 0;
        slit (-3) 0 /. slit 140 0];
       [slit 1 0 /. slit 20 0;
        (slit 329 0 +. slit 105 0 *. sqrt21) /. slit 2880 0;
        slit 73 0 /. slit 360 0;
        (slit 329 0 -. slit 105 0 *. sqrt21) /. slit 2880 0;
        slit 3 0 /. slit 160 0];
       [slit 1 0 /. slit 20 0;
        (slit 203 0 +. slit 30 0 *. sqrt21) /. slit 1260 0;
        (slit 47 0 +. slit 15 0 *. sqrt21) /. slit 315 0;
        slit 29 0 /. slit 180 0;
        slit (-3) 0 /. slit 140 0];
       [slit 1 0 /. slit 20 0;
        slit 49 0 /. slit 180 0;
        slit 16 0 /. slit 45 0;
        slit 49 0 /. slit 180 0;
        slit 1 0 /. slit 20 0]] in
    let b := [slit 5 (-2);
              slit 49 0 /. slit 180 0;
              slit 16 0 /. slit 45 0;
              slit 49 0 /. slit 180 0;
              slit 5 (-2)] in
    let c := [slit 0 0;
              slit 5 (-1) -. sqrt21 /. slit 14 0;
              slit 5 (-1);
              slit 5 (-1) +. sqrt21 /. slit 14 0;
              slit 1 0] in
    let b2 := [slit 5 (-2);
               slit 5 (-2);
               slit 49 0 /. slit 180 0;
               slit 16 0 /. slit 45 0;
               slit 49 0 /. slit 180 0] in
    b_interp <-- collocation_interpolate_coeffs c ;;
    Ok (SolverCoeffs b c A b2 (Some 8%Z) (Some 5%Z) false gamma b_interp).

  (** irk.cpp:328-340, case GAUSS_LEGENDRE_42 *)
  Definition irk_gauss_legendre_42 : res (solver_coeffs T) :=
    let gamma := slit 0 0 in
    let A := of_rows (sZ 0)
      [[slit 25 (-2); slit 25 (-2) -. sqrt3 /. slit 6 0; slit 0 0];
       [slit 25 (-2) +. sqrt3 /. slit 6 0; slit 25 (-2); slit 0 0];
       [slit 0 0; slit 0 0; slit 0 0]] in
    let b := [slit 5 (-1); slit 5 (-1); slit 0 0] in
    let c := [slit 5 (-1) -. sqrt3 /. slit 6 0; slit 5 (-1) +. sqrt3 /. slit 6 0; slit 0 0] in
    let b2 := [(slit 3 0 *. sqrt3 +. slit 1 0) /. slit 12 0;
               (slit 7 0 -. sqrt3) /. slit 12 0;
               (slit 2 0 -. sqrt3) /. slit 6 0] in
    Ok (SolverCoeffs b c A b2 (Some 4%Z) (Some 2%Z) false gamma mat_empty).

  (** irk.cpp:342-359, case RADAU_IIA_32 *)
  Definition irk_radau_iia_32 : res (solver_coeffs T) :=
    let gamma := slit 1 0 /. slit 3 0 in
    let A := of_rows (sZ 0)
      [[slit 5 0 /. slit 12 0; slit (-1) 0 /. slit 12 0];
       [slit 3 0 /. slit 4 0; slit 1 0 /. slit 4 0]] in
    let b := [slit 3 0 /. slit 4 0; slit 1 0 /. slit 4 0] in
    let c := [slit 1 0 /. slit 3 0; slit 1 0] in
    let b2 := [slit 2 0 /. slit 3 0; slit 1 0 /. slit 3 0] in
    b_interp <-- collocation_interpolate_coeffs c ;;
    Ok (SolverCoeffs b c A b2 (Some 3%Z) (Some 2%Z) false gamma b_interp).

  (** irk.cpp:363-390, case RADAU_IIA_53 *)
  Definition irk_radau_iia_53 : res (solver_coeffs T) :=
    let gamma := slit 274888829595677 (-15) in
    let A := of_rows (sZ 0)
      [[(slit 88 0 -. slit 7 0 *. sqrt6) /. slit 360 0;
        (slit 296 0 -. slit 169 0 *. sqrt6) /. slit 1800 0;
        (slit (-2) 0 +. slit 3 0 *. sqrt6) /. slit 225 0];
       [(slit 296 0 +. slit 169 0 *. sqrt6) /. slit 1800 0;
        (slit 88 0 +. slit 7 0 *. sqrt6) /. slit 360 0;
        (slit (-2) 0 -. slit 3 0 *. sqrt6) /. slit 225 0];
       [(slit 16 0 -. sqrt6) /. slit 36 0; (slit 16 0 +. sqrt6) /. slit 36 0; slit 1 0 /. slit 9 0]] in
    let b := [(slit 16 0 -. sqrt6) /. slit 36 0;
              (slit 16 0 +. sqrt6) /. slit 36 0;
              slit 1 0 /. slit 9 0] in
    let c := [(slit 4 0 -. sqrt6) /. slit 10 0; (slit 4 0 +. sqrt6) /. slit 10 0; slit 1 0] in
    let b2 := [(-. ((slit 18 0 *. sqrt6 +. slit 12 0) *. gamma -. slit 16 0 +. sqrt6)) /. slit 36 0;
               ((slit 18 0 *. sqrt6 -. slit 12 0) *. gamma +. slit 16 0 +. sqrt6) /. slit 36 0;
               (-. (slit 3 0 *. gamma -. slit 1 0)) /. slit 9 0] in
    b_interp <-- collocation_interpolate_coeffs c ;;
    Ok (SolverCoeffs b c A b2 (Some 5%Z) (Some 3%Z) false gamma b_interp).

  (** irk.cpp:393-436, case RADAU_IIA_95 *)
  Definition irk_radau_iia_95 : res (solver_coeffs T) :=
    let gamma := slit 159065844427469 (-15) in
    let A := of_rows (sZ 0)
      [[slit 729988643179033243 (-19);
        slit (-267353311079455719) (-19);
        slit 186769297639843544 (-19);
        slit (-128791060933064399) (-19);
        slit 504283923388201521 (-20)];
       [slit 153775231479182469 (-18);
        slit 146214867847493507 (-18);
        slit (-3644456890512809) (-17);
        slit 21233063119304719 (-18);
        slit (-7935579902728778) (-18)];
       [slit 14006304568480987 (-17);
        slit 29896712949128348 (-17);
        slit 16758507013524896 (-17);
        slit (-3396910168661775) (-17);
        slit 1094428874419225 (-17)];
       [slit 14489430810953476 (-17);
        slit 2765000687601592 (-16);
        slit 325797922910421 (-15);
        slit 1287567532549098 (-16);
        slit (-1570891737880533) (-17)];
       [slit 1437135607912259 (-16);
        slit 2813560151494621 (-16);
        slit 3118265229757413 (-16);
        slit 2231039010835707 (-16);
        slit 4 (-2)]] in
    let b := [slit 1437135607912259 (-16);
              slit 2813560151494621 (-16);
              slit 3118265229757413 (-16);
              slit 2231039010835707 (-16);
              slit 4 (-2)] in
    let c := [slit 5710419611451768219312119255411562124 (-38);
              slit 27684301363812382768004599768562514112 (-38);
              slit 58359043236891682005669766866291724869 (-38);
              slit 86024013565621944784791291887511976674 (-38);
              slit 1 0] in
    let b2 := [vat b 0 -. slit 15864079001863282 (-16) *. gamma;
               vat b 1 +. slit 1008117881498373 (-15) *. gamma;
               vat b 2 -. slit 73097486615978746 (-17) *. gamma;
               vat b 3 +. slit 50926488484774272 (-17) *. gamma;
               vat b 4 -. slit 2 (-1) *. gamma] in
    b_interp <-- collocation_interpolate_coeffs c ;;
    Ok (SolverCoeffs b c A b2 (Some 9%Z) (Some 5%Z) false gamma b_interp).

  (** irk.cpp:439-532, case RADAU_IIA_137 *)
  Definition irk_radau_iia_137 : res (solver_coeffs T) :=
    let gamma := slit 111896465300035075935905337180769194745 (-39) in
    let A := of_rows (sZ 0)
      [[slit 3754626499392133133368612762410555141 (-38);
        slit (-14039334556460401537626568603936253927) (-39);
        slit 10352789600742300936755479003273124789 (-39);
        slit (-8158322540275011909204543577213278349) (-39);
        slit 6388413879534684943755951486405680409 (-39);
        slit (-4602326779148655499352025854768521774) (-39);
        slit 1828942561470643704035856835298607816 (-39)];
       [slit 80147596515618967795215595316188773479 (-39);
        slit 81062063985891536679584719357221980975 (-39);
        slit (-21237992120711034937085469604419103837) (-39);
        slit 14000291238817118983742204835134926788 (-39);
        slit (-10234185730090163829199816607636044634) (-39);
        slit 7153465151364590498062382166962141175 (-39);
        slit (-2812639372406723340342762967473461717) (-39)];
       [slit 7206384694188190211336252656113759678 (-38);
        slit 1710683549838866194243525040090503028 (-37);
        slit 109614564040072109233220407461845690823 (-39);
        slit (-24619871728984053862318864441100561089) (-39);
        slit 14760377043950817073195348981742706482 (-39);
        slit (-9575259396791400556328724726641713431) (-39);
        slit 3672678397138305671569774234741682832 (-39)];
       [slit 7570512581982442042464122949633892197 (-38);
        slit 154090155142171144646331682046482915172 (-39);
        slit 227107736673202386411281287949366350098 (-39);
        slit 117478187037024781987912680673932161442 (-39);
        slit (-23810827153044173582047929325774334376) (-39);
        slit 12709985533661205633610757619788395065 (-39);
        slit (-4608844281289633440336366654612469297) (-39)];
       [slit 73912342163191846540806321243016399213 (-39);
        slit 161355607615942432186220145903094810374 (-39);
        slit 20686724155210419781957884643767073091 (-38);
        slit 237007115342694234762246772957327514747 (-39);
        slit 103086793533813446624105845745721640646 (-39);
        slit (-18854139152580448840052190417863035125) (-39);
        slit 5858900974888791823977618246677391072 (-39)];
       [slit 74705562059796230172292559361766628756 (-39);
        slit 158307223872468700658479384514628716574 (-39);
        slit 214153423267200031108697457856861396619 (-39);
        slit 219877847031860039987487355490766771106 (-39);
        slit 19875212168063526980182646918453450476 (-38);
        slit 69265501605509133230972165761976742365 (-39);
        slit (-8116008197728290107881426350852749124) (-39)];
       [slit 74494235556010317933248780209166920975 (-39);
        slit 159102115733650740872435217234934182108 (-39);
        slit 212351889502977804199154019575104122356 (-39);
        slit 223554914507283234749674476821221017986 (-39);
        slit 190474936822115576902969173938062761867 (-39);
        slit 11961374461265620289353874038477630083 (-38);
        slit 20408163265306122448979591836734693878 (-39)]] in
    let b := [slit 74494235556010317933248780209166920975 (-39);
              slit 159102115733650740872435217234934182108 (-39);
              slit 212351889502977804199154019575104122356 (-39);
              slit 223554914507283234749674476821221017986 (-39);
              slit 190474936822115576902969173938062761867 (-39);
              slit 11961374461265620289353874038477630083 (-38);
              slit 20408163265306122448979591836734693878 (-39)] in
    let c := [slit 29316427159784891972050276913164910374 (-39);
              slit 14807859966848429184997685249597921223 (-38);
              slit 336984690281154299097052972080775705198 (-39);
              slit 558671518771550132081393341805521940074 (-39);
              slit 769233862030054500916883360115645451837 (-39);
              slit 926945671319741114851873965819682011056 (-39);
              slit 1 0] in
    let b2 := [vat b 0 -. slit 15940642185610418 (-16) *. gamma;
               vat b 1 +. slit 10365537521964765 (-16) *. gamma;
               vat b 2 -. slit 79382172349079269 (-17) *. gamma;
               vat b 3 +. slit 63257765224993423 (-17) *. gamma;
               vat b 4 -. slit 49761071360300131 (-17) *. gamma;
               vat b 5 +. slit 35922239406556795 (-17) *. gamma;
               vat b 6 -. slit 14285714285714286 (-17) *. gamma] in
    b_interp <-- collocation_interpolate_coeffs c ;;
    Ok (SolverCoeffs b c A b2 (Some 13%Z) (Some 7%Z) false gamma b_interp).

  (** irk.cpp:535-612, case GAUSS_LEGENDRE_147 *)
  Definition irk_gauss_legendre_147 : res (solver_coeffs T) :=
    let gamma := slit 100567464822504836 (-18) in
    let A := of_rows (sZ 0)
      [[slit 323712415422174233 (-19);
        slit (-114510172831838703) (-19);
        slit 763320387242354493 (-20);
        slit (-513373356322534498) (-20);
        slit 317505877368563764 (-20);
        slit (-160681903704610586) (-20);
        slit 458109523749452982 (-21)];
       [slit 700435413787260763 (-19);
        slit 69926347872319167 (-18);
        slit (-165900065788477712) (-19);
        slit 934962278344333208 (-20);
        slit (-539709193189613785) (-20);
        slit 264584386673003738 (-20);
        slit (-743850190171923617) (-21)];
       [slit 621539357873498645 (-19);
        slit 152005522057830993 (-18);
        slit 954575126262797362 (-19);
        slit (-183752442154518374) (-19);
        slit 871256259847518198 (-20);
        slit (-395358015881043812) (-20);
        slit 107671561562791674 (-20)];
       [slit 663329286176847006 (-19);
        slit 133595769223882288 (-18);
        slit 207701880765970782 (-18);
        slit 104489795918367347 (-18);
        slit (-167868555134113096) (-19);
        slit 625692652075604553 (-20);
        slit (-159044553324985392) (-20)];
       [slit 636657674688069299 (-19);
        slit 143806275903448772 (-18);
        slit 18220246265408429 (-17);
        slit 227354836052186531 (-18);
        slit 954575126262797362 (-19);
        slit (-121528263131926586) (-19);
        slit 25885472970849821 (-19)];
       [slit 654863332746067703 (-19);
        slit 137206851877908297 (-18);
        slit 19631211718445561 (-17);
        slit 199629969053291362 (-18);
        slit 207505031831407244 (-18);
        slit 69926347872319167 (-18);
        slit (-530105829429122964) (-20)];
       [slit 642843735606853937 (-19);
        slit 14145951478168444 (-17);
        slit 187739966478873835 (-18);
        slit 214113325399960039 (-18);
        slit 183281821380135928 (-18);
        slit 151303713027822204 (-18);
        slit 323712415422174233 (-19)]] in
    let b := [slit 647424830844348466 (-19);
              slit 139852695744638334 (-18);
              slit 190915025252559472 (-18);
              slit 208979591836734694 (-18);
              slit 190915025252559472 (-18);
              slit 139852695744638334 (-18);
              slit 647424830844348466 (-19)] in
    let c := [slit 254460438286207377 (-19);
              slit 12923440720030278 (-17);
              slit 297077424311301417 (-18);
              slit 5 (-1);
              slit 702922575688698583 (-18);
              slit 87076559279969722 (-17);
              slit 974553956171379262 (-18)] in
    let b2 := [vat b 0 -. slit 15746624997105505 (-16) *. gamma;
               vat b 1 +. slit 97072669650612219 (-17) *. gamma;
               vat b 2 -. slit 67210786192236179 (-17) *. gamma;
               vat b 3 +. slit 45714285714285714 (-17) *. gamma;
               vat b 4 -. slit 28405414676522997 (-17) *. gamma;
               vat b 5 +. slit 14407010361206885 (-17) *. gamma;
               vat b 6 -. slit 4111514886290593 (-17) *. gamma] in
    Ok (SolverCoeffs b c A b2 None None false gamma mat_empty).

  (** irk.cpp:615-669, case LOBATTO_IIIA_127 *)
  Definition irk_lobatto_iiia_127 : res (solver_coeffs T) :=
    let gamma := slit 5 (-1) in
    let A := of_rows (sZ 0)
      [[slit 0 0; slit 0 0; slit 0 0; slit 0 0; slit 0 0; slit 0 0; slit 0 0];
       [slit 328462643282926479 (-19);
        slit 593228940275514045 (-19);
        slit (-107685944511892671) (-19);
        slit 559759178056977723 (-20);
        slit (-348892997080746277) (-20);
        slit 22170965889145397 (-19);
        slit (-83827044261510438) (-20)];
       [slit 180022232018151657 (-19);
        slit 157701130641689042 (-18);
        slit 102354812046861915 (-18);
        slit (-18478259273459044) (-18);
        slit 957758010074140595 (-20);
        slit (-568186456622437757) (-20);
        slit 209998111321878573 (-20)];
       [slit 275297619047619048 (-19);
        slit 12778825555983747 (-17);
        slit 237485652721645444 (-18);
        slit 121904761904761905 (-18);
        slit (-216129621167141318) (-19);
        slit 106247681209455044 (-19);
        slit (-372023809523809524) (-20)];
       [slit 217095426963050238 (-19);
        slit 144094888247007352 (-18);
        slit 206295110504189906 (-18);
        slit 262287783082982854 (-18);
        slit 113517878558069396 (-18);
        slit (-19288106960906068) (-18);
        slit 580730060770864382 (-20)];
       [slit 246477942521389139 (-19);
        slit 136195927091868434 (-18);
        slit 219361620575738774 (-18);
        slit 238211932028954032 (-18);
        slit 226641285056120579 (-18);
        slit 790901296532315695 (-19);
        slit (-903674051876883836) (-20)];
       [slit 238095238095238095 (-19);
        slit 138413023680782974 (-18);
        slit 215872690604931312 (-18);
        slit 24380952380952381 (-17);
        slit 215872690604931312 (-18);
        slit 138413023680782974 (-18);
        slit 238095238095238095 (-19)]] in
    let b := [slit 238095238095238095 (-19);
              slit 138413023680782974 (-18);
              slit 215872690604931312 (-18);
              slit 24380952380952381 (-17);
              slit 215872690604931312 (-18);
              slit 138413023680782974 (-18);
              slit 238095238095238095 (-19)] in
    let c := [slit 0 0;
              slit 848880518607165351 (-19);
              slit 265575603264642893 (-18);
              slit 5 (-1);
              slit 734424396735357107 (-18);
              slit 915111948139283465 (-18);
              slit 1 0] in
    let b2 := [vat b 0 -. gamma; vat b 1; vat b 2; vat b 3; vat b 4; vat b 5; vat b 6] in
    Ok (SolverCoeffs b c A b2 None None false gamma mat_empty).

  (** irk.cpp:233-672, the switch.  [default]: only FSAL, name and gamma are set (irk.cpp:229-231). *)
  Definition irk_table (method : Z) : res (solver_coeffs T) :=
    if (method =? IMPLICIT_EULER)%Z then irk_implicit_euler
    else if (method =? LOBATTO_IIIA_43)%Z then irk_lobatto_iiia_43
    else if (method =? LOBATTO_IIIC_43)%Z then irk_lobatto_iiic_43
    else if (method =? LOBATTO_IIIC_64)%Z then irk_lobatto_iiic_64
    else if (method =? LOBATTO_IIIC_85)%Z then irk_lobatto_iiic_85
    else if (method =? GAUSS_LEGENDRE_42)%Z then irk_gauss_legendre_42
    else if (method =? RADAU_IIA_32)%Z then irk_radau_iia_32
    else if (method =? RADAU_IIA_53)%Z then irk_radau_iia_53
    else if (method =? RADAU_IIA_95)%Z then irk_radau_iia_95
    else if (method =? RADAU_IIA_137)%Z then irk_radau_iia_137
    else if (method =? GAUSS_LEGENDRE_147)%Z then irk_gauss_legendre_147
    else if (method =? LOBATTO_IIIA_127)%Z then irk_lobatto_iiia_127
    else Ok unsupported_coeffs.

  (** irk.cpp:215-689, get_coefficients.  The name (a registry lookup, see Enums.v) is not part of the record. *)
  Definition irk_get_coefficients (method : Z) : res (solver_coeffs T) :=
    sc <-- irk_table method ;;
    _ <-- coeff_warnings sc ;;
    Ok sc.

  (** irk.cpp:99-108, verify_solver_coeffs *)
  Definition irk_verify_solver_coeffs (sc : solver_coeffs T) : bool :=
    let N := length (sc_b sc) in
    if negb ((N =? length (sc_c sc)) && (N =? nrows (sc_A sc)) && (N =? ncols (sc_A sc))) then false
    else if N =? 0 then false
    else true.
End IrkCoeffs.
