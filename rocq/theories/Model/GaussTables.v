(** crates/multicalc/src/gaussian_tables/{legendre,hermite,laguerre}.rs: the tabulated (weight, abscissa) pairs of every order.
    A decimal literal is its digits and how many of them follow the point.  The lines of each table are cited beside it. *)
From Coq Require Import ZArith List.
Import ListNotations.
Local Open Scope Z_scope.

Definition decimal := (Z * Z)%type.

(** legendre.rs:4-4 *)
Definition legendre_1 : list (decimal * decimal) := [((2, 0), (0, 0))].
(** legendre.rs:5-5 *)
Definition legendre_2 : list (decimal * decimal) := [((1, 0), (-5773502691896257, 16)); ((1, 0), (5773502691896257, 16))].
(** legendre.rs:6-10 *)
Definition legendre_3 : list (decimal * decimal) := [((5555555555555557, 16), (-7745966692414834, 16)); ((8888888888888888, 16), (0, 0)); ((5555555555555557, 16), (7745966692414834, 16))].
(** legendre.rs:11-16 *)
Definition legendre_4 : list (decimal * decimal) := [((3478548451374537, 16), (-8611363115940526, 16)); ((6521451548625462, 16), (-33998104358485626, 17)); ((6521451548625462, 16), (33998104358485626, 17)); ((3478548451374537, 16), (8611363115940526, 16))].
(** legendre.rs:17-23 *)
Definition legendre_5 : list (decimal * decimal) := [((23692688505618942, 17), (-906179845938664, 15)); ((4786286704993662, 16), (-5384693101056831, 16)); ((568888888888889, 15), (0, 0)); ((4786286704993662, 16), (5384693101056831, 16)); ((23692688505618942, 17), (906179845938664, 15))].
(** legendre.rs:24-31 *)
Definition legendre_6 : list (decimal * decimal) := [((17132449237916975, 17), (-932469514203152, 15)); ((36076157304813894, 17), (-6612093864662645, 16)); ((46791393457269137, 17), (-23861918608319693, 17)); ((46791393457269137, 17), (23861918608319693, 17)); ((36076157304813894, 17), (6612093864662645, 16)); ((17132449237916975, 17), (932469514203152, 15))].
(** legendre.rs:32-40 *)
Definition legendre_7 : list (decimal * decimal) := [((12948496616887065, 17), (-9491079123427585, 16)); ((2797053914892766, 16), (-7415311855993945, 16)); ((3818300505051183, 16), (-4058451513773972, 16)); ((41795918367346896, 17), (0, 0)); ((3818300505051183, 16), (4058451513773972, 16)); ((2797053914892766, 16), (7415311855993945, 16)); ((12948496616887065, 17), (9491079123427585, 16))].
(** legendre.rs:41-50 *)
Definition legendre_8 : list (decimal * decimal) := [((10122853629037669, 17), (-9602898564975362, 16)); ((22238103445337434, 17), (-7966664774136267, 16)); ((31370664587788705, 17), (-525532409916329, 15)); ((36268378337836177, 17), (-18343464249564978, 17)); ((36268378337836177, 17), (18343464249564978, 17)); ((31370664587788705, 17), (525532409916329, 15)); ((22238103445337434, 17), (7966664774136267, 16)); ((10122853629037669, 17), (9602898564975362, 16))].
(** legendre.rs:51-61 *)
Definition legendre_9 : list (decimal * decimal) := [((8127438836157472, 17), (-9681602395076261, 16)); ((18064816069485712, 17), (-8360311073266358, 16)); ((26061069640293566, 17), (-6133714327005904, 16)); ((3123470770400028, 16), (-3242534234038089, 16)); ((33023935500125967, 17), (0, 0)); ((3123470770400028, 16), (3242534234038089, 16)); ((26061069640293566, 17), (6133714327005904, 16)); ((18064816069485712, 17), (8360311073266358, 16)); ((8127438836157472, 17), (9681602395076261, 16))].
(** legendre.rs:62-73 *)
Definition legendre_10 : list (decimal * decimal) := [((6667134430868807, 17), (-9739065285171717, 16)); ((14945134915058036, 17), (-8650633666889845, 16)); ((219086362515982, 15), (-6794095682990244, 16)); ((2692667193099965, 16), (-4333953941292472, 16)); ((295524224714753, 15), (-14887433898163122, 17)); ((295524224714753, 15), (14887433898163122, 17)); ((2692667193099965, 16), (4333953941292472, 16)); ((219086362515982, 15), (6794095682990244, 16)); ((14945134915058036, 17), (8650633666889845, 16)); ((6667134430868807, 17), (9739065285171717, 16))].
(** legendre.rs:74-86 *)
Definition legendre_11 : list (decimal * decimal) := [((55668567116173164, 18), (-978228658146057, 15)); ((1255803694649047, 16), (-8870625997680953, 16)); ((18629021092773443, 17), (-7301520055740494, 16)); ((23319376459199068, 17), (-5190961292068118, 16)); ((26280454451024676, 17), (-26954315595234496, 17)); ((2729250867779009, 16), (0, 0)); ((26280454451024676, 17), (26954315595234496, 17)); ((23319376459199068, 17), (5190961292068118, 16)); ((18629021092773443, 17), (7301520055740494, 16)); ((1255803694649047, 16), (8870625997680953, 16)); ((55668567116173164, 18), (978228658146057, 15))].
(** legendre.rs:87-100 *)
Definition legendre_12 : list (decimal * decimal) := [((4717533638651202, 17), (-9815606342467192, 16)); ((10693932599531888, 17), (-9041172563704748, 16)); ((1600783285433461, 16), (-7699026741943047, 16)); ((20316742672306565, 17), (-5873179542866175, 16)); ((23349253653835464, 17), (-3678314989981802, 16)); ((2491470458134027, 16), (-1252334085114689, 16)); ((2491470458134027, 16), (1252334085114689, 16)); ((23349253653835464, 17), (3678314989981802, 16)); ((20316742672306565, 17), (5873179542866175, 16)); ((1600783285433461, 16), (7699026741943047, 16)); ((10693932599531888, 17), (9041172563704748, 16)); ((4717533638651202, 17), (9815606342467192, 16))].
(** legendre.rs:101-115 *)
Definition legendre_13 : list (decimal * decimal) := [((4048400476531588, 17), (-9841830547185881, 16)); ((921214998377286, 16), (-9175983992229779, 16)); ((13887351021978736, 17), (-8015780907333099, 16)); ((17814598076194552, 17), (-6423493394403402, 16)); ((20781604753688857, 17), (-4484927510364468, 16)); ((22628318026289715, 17), (-23045831595513477, 17)); ((2325515532308739, 16), (0, 0)); ((22628318026289715, 17), (23045831595513477, 17)); ((20781604753688857, 17), (4484927510364468, 16)); ((17814598076194552, 17), (6423493394403402, 16)); ((13887351021978736, 17), (8015780907333099, 16)); ((921214998377286, 16), (9175983992229779, 16)); ((4048400476531588, 17), (9841830547185881, 16))].
(** legendre.rs:116-131 *)
Definition legendre_14 : list (decimal * decimal) := [((35119460331752374, 18), (-9862838086968123, 16)); ((801580871597603, 16), (-9284348836635735, 16)); ((12151857068790296, 17), (-827201315069765, 15)); ((1572031671581934, 16), (-6872929048116855, 16)); ((18553839747793763, 17), (-5152486363581541, 16)); ((20519846372129555, 17), (-31911236892788974, 17)); ((21526385346315766, 17), (-10805494870734367, 17)); ((21526385346315766, 17), (10805494870734367, 17)); ((20519846372129555, 17), (31911236892788974, 17)); ((18553839747793763, 17), (5152486363581541, 16)); ((1572031671581934, 16), (6872929048116855, 16)); ((12151857068790296, 17), (827201315069765, 15)); ((801580871597603, 16), (9284348836635735, 16)); ((35119460331752374, 18), (9862838086968123, 16))].
(** legendre.rs:132-148 *)
Definition legendre_15 : list (decimal * decimal) := [((30753241996118647, 18), (-9879925180204854, 16)); ((7036604748810807, 17), (-937273392400706, 15)); ((10715922046717177, 17), (-8482065834104272, 16)); ((1395706779261539, 16), (-7244177313601701, 16)); ((16626920581699378, 17), (-5709721726085388, 16)); ((18616100001556188, 17), (-3941513470775634, 16)); ((19843148532711125, 17), (-20119409399743451, 17)); ((2025782419255609, 16), (0, 0)); ((19843148532711125, 17), (20119409399743451, 17)); ((18616100001556188, 17), (3941513470775634, 16)); ((16626920581699378, 17), (5709721726085388, 16)); ((1395706779261539, 16), (7244177313601701, 16)); ((10715922046717177, 17), (8482065834104272, 16)); ((7036604748810807, 17), (937273392400706, 15)); ((30753241996118647, 18), (9879925180204854, 16))].
(** legendre.rs:149-166 *)
Definition legendre_16 : list (decimal * decimal) := [((27152459411754037, 18), (-9894009349916499, 16)); ((62253523938647706, 18), (-9445750230732326, 16)); ((9515851168249259, 17), (-8656312023878318, 16)); ((12462897125553403, 17), (-755404408355003, 15)); ((14959598881657676, 17), (-6178762444026438, 16)); ((16915651939500262, 17), (-45801677765722737, 17)); ((1826034150449236, 16), (-2816035507792589, 16)); ((18945061045506859, 17), (-9501250983763745, 17)); ((18945061045506859, 17), (9501250983763745, 17)); ((1826034150449236, 16), (2816035507792589, 16)); ((16915651939500262, 17), (45801677765722737, 17)); ((14959598881657676, 17), (6178762444026438, 16)); ((12462897125553403, 17), (755404408355003, 15)); ((9515851168249259, 17), (8656312023878318, 16)); ((62253523938647706, 18), (9445750230732326, 16)); ((27152459411754037, 18), (9894009349916499, 16))].
(** legendre.rs:167-185 *)
Definition legendre_17 : list (decimal * decimal) := [((2414830286854952, 17), (-9905754753144174, 16)); ((554595293739866, 16), (-9506755217687678, 16)); ((8503614831717908, 17), (-8802391537269859, 16)); ((11188384719340365, 17), (-7815140038968014, 16)); ((13513636846852523, 17), (-6576711592166908, 16)); ((15404576107681012, 17), (-5126905370864769, 16)); ((16800410215644995, 17), (-3512317634538763, 16)); ((17656270536699253, 17), (-17848418149584785, 17)); ((17944647035620653, 17), (0, 0)); ((17656270536699253, 17), (17848418149584785, 17)); ((16800410215644995, 17), (3512317634538763, 16)); ((15404576107681012, 17), (5126905370864769, 16)); ((13513636846852523, 17), (6576711592166908, 16)); ((11188384719340365, 17), (7815140038968014, 16)); ((8503614831717908, 17), (8802391537269859, 16)); ((554595293739866, 16), (9506755217687678, 16)); ((2414830286854952, 17), (9905754753144174, 16))].
(** legendre.rs:186-205 *)
Definition legendre_18 : list (decimal * decimal) := [((2161601352648413, 17), (-9915651684209309, 16)); ((4971454889496922, 17), (-9558239495713978, 16)); ((7642573025488925, 17), (-8926024664975557, 16)); ((10094204410628699, 17), (-8037049589725231, 16)); ((12255520671147836, 17), (-6916870430603532, 16)); ((14064291467065063, 17), (-5597708310739475, 16)); ((15468467512626521, 17), (-41175116146284263, 17)); ((16427648374583273, 17), (-2518862256915055, 16)); ((16914238296314363, 17), (-8477501304173529, 17)); ((16914238296314363, 17), (8477501304173529, 17)); ((16427648374583273, 17), (2518862256915055, 16)); ((15468467512626521, 17), (41175116146284263, 17)); ((14064291467065063, 17), (5597708310739475, 16)); ((12255520671147836, 17), (6916870430603532, 16)); ((10094204410628699, 17), (8037049589725231, 16)); ((7642573025488925, 17), (8926024664975557, 16)); ((4971454889496922, 17), (9558239495713978, 16)); ((2161601352648413, 17), (9915651684209309, 16))].
(** legendre.rs:206-226 *)
Definition legendre_19 : list (decimal * decimal) := [((1946178822972761, 17), (-9924068438435844, 16)); ((4481422676569981, 17), (-96020815213483, 14)); ((6904454273764107, 17), (-9031559036148179, 16)); ((9149002162244985, 17), (-8227146565371428, 16)); ((11156664554733375, 17), (-7209661773352294, 16)); ((1287539625393362, 16), (-600545304661681, 15)); ((14260670217360638, 17), (-46457074137596094, 17)); ((15276604206585945, 17), (-31656409996362983, 17)); ((15896884339395415, 17), (-1603586456402254, 16)); ((16105444984878345, 17), (0, 0)); ((15896884339395415, 17), (1603586456402254, 16)); ((15276604206585945, 17), (31656409996362983, 17)); ((14260670217360638, 17), (46457074137596094, 17)); ((1287539625393362, 16), (600545304661681, 15)); ((11156664554733375, 17), (7209661773352294, 16)); ((9149002162244985, 17), (8227146565371428, 16)); ((6904454273764107, 17), (9031559036148179, 16)); ((4481422676569981, 17), (96020815213483, 14)); ((1946178822972761, 17), (9924068438435844, 16))].
(** legendre.rs:227-248 *)
Definition legendre_20 : list (decimal * decimal) := [((17614007139153273, 18), (-9931285991850949, 16)); ((4060142980038622, 17), (-9639719272779138, 16)); ((6267204833410944, 17), (-9122344282513258, 16)); ((8327674157670467, 17), (-8391169718222188, 16)); ((10193011981724026, 17), (-7463319064601508, 16)); ((11819453196151825, 17), (-636053680726515, 15)); ((13168863844917653, 17), (-5108670019508271, 16)); ((14209610931838187, 17), (-37370608871541955, 17)); ((14917298647260366, 17), (-2277858511416451, 16)); ((15275338713072578, 17), (-7652652113349734, 17)); ((15275338713072578, 17), (7652652113349734, 17)); ((14917298647260366, 17), (2277858511416451, 16)); ((14209610931838187, 17), (37370608871541955, 17)); ((13168863844917653, 17), (5108670019508271, 16)); ((11819453196151825, 17), (636053680726515, 15)); ((10193011981724026, 17), (7463319064601508, 16)); ((8327674157670467, 17), (8391169718222188, 16)); ((6267204833410944, 17), (9122344282513258, 16)); ((4060142980038622, 17), (9639719272779138, 16)); ((17614007139153273, 18), (9931285991850949, 16))].
(** legendre.rs:249-271 *)
Definition legendre_21 : list (decimal * decimal) := [((16017228257774137, 18), (-9937521706203895, 16)); ((3695378977085292, 17), (-9672268385663063, 16)); ((57134425426857156, 18), (-9200993341504008, 16)); ((7610011362837935, 17), (-8533633645833173, 16)); ((9344442345603382, 17), (-7684399634756779, 16)); ((10879729916714831, 17), (-6671388041974123, 16)); ((12183141605372842, 17), (-5516188358872198, 16)); ((13226893863333739, 17), (-4243421202074388, 16)); ((13988739479107312, 17), (-2880213168024011, 16)); ((14452440398997007, 17), (-1455618541608951, 16)); ((14608113364969047, 17), (0, 0)); ((14452440398997007, 17), (1455618541608951, 16)); ((13988739479107312, 17), (2880213168024011, 16)); ((13226893863333739, 17), (4243421202074388, 16)); ((12183141605372842, 17), (5516188358872198, 16)); ((10879729916714831, 17), (6671388041974123, 16)); ((9344442345603382, 17), (7684399634756779, 16)); ((7610011362837935, 17), (8533633645833173, 16)); ((57134425426857156, 18), (9200993341504008, 16)); ((3695378977085292, 17), (9672268385663063, 16)); ((16017228257774137, 18), (9937521706203895, 16))].
(** legendre.rs:272-295 *)
Definition legendre_22 : list (decimal * decimal) := [((14627995298274705, 18), (-9942945854823992, 16)); ((3377490158481518, 17), (-9700604978354287, 16)); ((5229333515268287, 17), (-926956772187174, 15)); ((697964684245202, 16), (-8658125777203002, 16)); ((859416062170674, 16), (-7878168059792081, 16)); ((10041414444288072, 17), (-6944872631866827, 16)); ((11293229608053883, 17), (-5876404035069116, 16)); ((12325237681051199, 17), (-46935583798675706, 17)); ((13117350478706188, 17), (-34193582089208424, 17)); ((13654149834601478, 17), (-2078604266882213, 16)); ((13925187285563156, 17), (-6973927331972221, 17)); ((13925187285563156, 17), (6973927331972221, 17)); ((13654149834601478, 17), (2078604266882213, 16)); ((13117350478706188, 17), (34193582089208424, 17)); ((12325237681051199, 17), (46935583798675706, 17)); ((11293229608053883, 17), (5876404035069116, 16)); ((10041414444288072, 17), (6944872631866827, 16)); ((859416062170674, 16), (7878168059792081, 16)); ((697964684245202, 16), (8658125777203002, 16)); ((5229333515268287, 17), (926956772187174, 15)); ((3377490158481518, 17), (9700604978354287, 16)); ((14627995298274705, 18), (9942945854823992, 16))].
(** legendre.rs:296-320 *)
Definition legendre_23 : list (decimal * decimal) := [((13411859487141846, 18), (-9947693349975522, 16)); ((30988005856979497, 18), (-9725424712181152, 16)); ((4803767173108495, 17), (-9329710868260161, 16)); ((6423242140852606, 17), (-8767523582704416, 16)); ((7928141177671887, 17), (-8048884016188399, 16)); ((9291576606003524, 17), (-7186613631319502, 16)); ((10489209146454138, 17), (-6196098757636461, 16)); ((1149966402224113, 16), (-5095014778460075, 16)); ((12304908430672945, 17), (-3903010380302908, 16)); ((128905722188082, 15), (-26413568097034495, 17)); ((13246203940469642, 17), (-1332568242984661, 16)); ((13365457218610594, 17), (0, 0)); ((13246203940469642, 17), (1332568242984661, 16)); ((128905722188082, 15), (26413568097034495, 17)); ((12304908430672945, 17), (3903010380302908, 16)); ((1149966402224113, 16), (5095014778460075, 16)); ((10489209146454138, 17), (6196098757636461, 16)); ((9291576606003524, 17), (7186613631319502, 16)); ((7928141177671887, 17), (8048884016188399, 16)); ((6423242140852606, 17), (8767523582704416, 16)); ((4803767173108495, 17), (9329710868260161, 16)); ((30988005856979497, 18), (9725424712181152, 16)); ((13411859487141846, 18), (9947693349975522, 16))].
(** legendre.rs:321-346 *)
Definition legendre_24 : list (decimal * decimal) := [((12341229799987091, 18), (-9951872199970213, 16)); ((28531388628933743, 18), (-9747285559713095, 16)); ((4427743881741955, 17), (-9382745520027328, 16)); ((5929858491543674, 17), (-886415527004401, 15)); ((7334648141108041, 17), (-820001985973903, 15)); ((8619016153195329, 17), (-7401241915785544, 16)); ((9761865210411406, 17), (-6480936519369755, 16)); ((1074442701159656, 16), (-5454214713888396, 16)); ((11550566805372561, 17), (-4337935076260451, 16)); ((12167047292780342, 17), (-3150426796961634, 16)); ((1258374563468283, 16), (-1911188674736163, 16)); ((12793819534675221, 17), (-6405689286260563, 17)); ((12793819534675221, 17), (6405689286260563, 17)); ((1258374563468283, 16), (1911188674736163, 16)); ((12167047292780342, 17), (3150426796961634, 16)); ((11550566805372561, 17), (4337935076260451, 16)); ((1074442701159656, 16), (5454214713888396, 16)); ((9761865210411406, 17), (6480936519369755, 16)); ((8619016153195329, 17), (7401241915785544, 16)); ((7334648141108041, 17), (820001985973903, 15)); ((5929858491543674, 17), (886415527004401, 15)); ((4427743881741955, 17), (9382745520027328, 16)); ((28531388628933743, 18), (9747285559713095, 16)); ((12341229799987091, 18), (9951872199970213, 16))].
(** legendre.rs:347-373 *)
Definition legendre_25 : list (decimal * decimal) := [((11393798501027593, 18), (-995556969790498, 15)); ((26354986615031908, 18), (-9766639214595175, 16)); ((409391567013065, 16), (-9429745712289743, 16)); ((5490469597583544, 17), (-8949919978782753, 16)); ((6803833381235701, 17), (-833442628760834, 15)); ((8014070033500098, 17), (-7592592630373576, 16)); ((9102826198296338, 17), (-6735663684734684, 16)); ((10053594906705049, 17), (-577662930241223, 15)); ((10851962447426344, 17), (-473002731445715, 15)); ((11485825914571146, 17), (-36117230580938786, 17)); ((1194557635357845, 16), (-24386688372098841, 17)); ((12224244299030987, 17), (-1228646926107104, 16)); ((12317605372671524, 17), (0, 0)); ((12224244299030987, 17), (1228646926107104, 16)); ((1194557635357845, 16), (24386688372098841, 17)); ((11485825914571146, 17), (36117230580938786, 17)); ((10851962447426344, 17), (473002731445715, 15)); ((10053594906705049, 17), (577662930241223, 15)); ((9102826198296338, 17), (6735663684734684, 16)); ((8014070033500098, 17), (7592592630373576, 16)); ((6803833381235701, 17), (833442628760834, 15)); ((5490469597583544, 17), (8949919978782753, 16)); ((409391567013065, 16), (9429745712289743, 16)); ((26354986615031908, 18), (9766639214595175, 16)); ((11393798501027593, 18), (995556969790498, 15))].
(** legendre.rs:374-401 *)
Definition legendre_26 : list (decimal * decimal) := [((10551372617343395, 18), (-9958857011456169, 16)); ((24417851092631938, 18), (-9783854459564709, 16)); ((3796238329436312, 17), (-9471590666617142, 16)); ((5097582529714808, 17), (-9026378619843071, 16)); ((6327404632957467, 17), (-845445942788498, 15)); ((7468414976565976, 17), (-7763859488206788, 16)); ((8504589431348507, 17), (-6964272604199573, 16)); ((9421380035591416, 17), (-6066922930176181, 16)); ((10205916109442532, 17), (-5084407148245057, 16)); ((10847184052857647, 17), (-4030517551234863, 16)); ((11336181654631956, 17), (-2920048394859569, 16)); ((11666044348529646, 17), (-17685882035689018, 17)); ((11832141527926213, 17), (-5923009342931321, 17)); ((11832141527926213, 17), (5923009342931321, 17)); ((11666044348529646, 17), (17685882035689018, 17)); ((11336181654631956, 17), (2920048394859569, 16)); ((10847184052857647, 17), (4030517551234863, 16)); ((10205916109442532, 17), (5084407148245057, 16)); ((9421380035591416, 17), (6066922930176181, 16)); ((8504589431348507, 17), (6964272604199573, 16)); ((7468414976565976, 17), (7763859488206788, 16)); ((6327404632957467, 17), (845445942788498, 15)); ((5097582529714808, 17), (9026378619843071, 16)); ((3796238329436312, 17), (9471590666617142, 16)); ((24417851092631938, 18), (9783854459564709, 16)); ((10551372617343395, 18), (9958857011456169, 16))].
(** legendre.rs:402-430 *)
Definition legendre_27 : list (decimal * decimal) := [((9798996051294204, 18), (-9961792628889885, 16)); ((22686231596180995, 18), (-9799234759615012, 16)); ((3529705375741918, 17), (-9509005578147051, 16)); ((47449412520615374, 18), (-9094823206774911, 16)); ((5898353685983364, 17), (-8562079080182945, 16)); ((6974882376624564, 17), (-7917716390705083, 16)); ((7960486777305782, 17), (-7170134737394237, 16)); ((8842315854375683, 17), (-6329079719464952, 16)); ((960887273700285, 16), (-540551564579457, 15)); ((10250163781774586, 17), (-44114825175002687, 17)); ((10757828578853317, 17), (-3359939036385089, 16)); ((11125248835684516, 17), (-22645936543953685, 17)); ((1134763461089652, 16), (-11397258560952997, 17)); ((11422086737895706, 17), (0, 0)); ((1134763461089652, 16), (11397258560952997, 17)); ((11125248835684516, 17), (22645936543953685, 17)); ((10757828578853317, 17), (3359939036385089, 16)); ((10250163781774586, 17), (44114825175002687, 17)); ((960887273700285, 16), (540551564579457, 15)); ((8842315854375683, 17), (6329079719464952, 16)); ((7960486777305782, 17), (7170134737394237, 16)); ((6974882376624564, 17), (7917716390705083, 16)); ((5898353685983364, 17), (8562079080182945, 16)); ((47449412520615374, 18), (9094823206774911, 16)); ((3529705375741918, 17), (9509005578147051, 16)); ((22686231596180995, 18), (9799234759615012, 16)); ((9798996051294204, 18), (9961792628889885, 16))].
(** legendre.rs:431-460 *)
Definition legendre_28 : list (decimal * decimal) := [((9124282593094397, 18), (-9964424975739544, 16)); ((2113211259277127, 17), (-9813031653708728, 16)); ((3290142778230452, 17), (-9542592806289382, 16)); ((44272934759003985, 18), (-9156330263921321, 16)); ((55107345675716936, 18), (-865892522574395, 15)); ((6527292396699975, 17), (-8056413709171791, 16)); ((7464621423456881, 17), (-7356108780136318, 16)); ((8311341722890093, 17), (-656651094038865, 15)); ((9057174439303285, 17), (-5697204718114017, 16)); ((9693065799792992, 17), (-4758742249551183, 16)); ((10211296757806078, 17), (-3762515160890787, 16)); ((10605576592284637, 17), (-2720616276351781, 16)); ((10871119225829413, 17), (-1645692821333808, 16)); ((11004701301647524, 17), (-55079289884034266, 18)); ((11004701301647524, 17), (55079289884034266, 18)); ((10871119225829413, 17), (1645692821333808, 16)); ((10605576592284637, 17), (2720616276351781, 16)); ((10211296757806078, 17), (3762515160890787, 16)); ((9693065799792992, 17), (4758742249551183, 16)); ((9057174439303285, 17), (5697204718114017, 16)); ((8311341722890093, 17), (656651094038865, 15)); ((7464621423456881, 17), (7356108780136318, 16)); ((6527292396699975, 17), (8056413709171791, 16)); ((55107345675716936, 18), (865892522574395, 15)); ((44272934759003985, 18), (9156330263921321, 16)); ((3290142778230452, 17), (9542592806289382, 16)); ((2113211259277127, 17), (9813031653708728, 16)); ((9124282593094397, 18), (9964424975739544, 16))].
(** legendre.rs:461-491 *)
Definition legendre_29 : list (decimal * decimal) := [((8516903878747237, 18), (-9966794422605966, 16)); ((19732085056123293, 18), (-9825455052614132, 16)); ((3074049220209336, 17), (-9572855957780877, 16)); ((4140206251868274, 17), (-9211802329530587, 16)); ((51594826902497753, 18), (-8746378049201028, 16)); ((6120309065707902, 17), (-8181854876152524, 16)); ((7011793325505114, 17), (-7524628517344771, 16)); ((7823832713576369, 17), (-6782145376026865, 16)); ((854722573661724, 16), (-5962817971382278, 16)); ((917377571392587, 16), (-5075929551242276, 16)); ((9696383409440848, 17), (-41315288817400864, 17)); ((10109127375991488, 17), (-31403163786763993, 17)); ((10407331007772933, 17), (-21135228616600107, 17)); ((10587615509732079, 17), (-10627823013267923, 17)); ((10647938171831416, 17), (0, 0)); ((10587615509732079, 17), (10627823013267923, 17)); ((10407331007772933, 17), (21135228616600107, 17)); ((10109127375991488, 17), (31403163786763993, 17)); ((9696383409440848, 17), (41315288817400864, 17)); ((917377571392587, 16), (5075929551242276, 16)); ((854722573661724, 16), (5962817971382278, 16)); ((7823832713576369, 17), (6782145376026865, 16)); ((7011793325505114, 17), (7524628517344771, 16)); ((6120309065707902, 17), (8181854876152524, 16)); ((51594826902497753, 18), (8746378049201028, 16)); ((4140206251868274, 17), (9211802329530587, 16)); ((3074049220209336, 17), (9572855957780877, 16)); ((19732085056123293, 18), (9825455052614132, 16)); ((8516903878747237, 18), (9966794422605966, 16))].
(** legendre.rs:492-523 *)
Definition legendre_30 : list (decimal * decimal) := [((7968192496169523, 18), (-9968934840746495, 16)); ((18466468311091087, 18), (-9836681232797473, 16)); ((28784707883322873, 18), (-9600218649683075, 16)); ((3879919256962679, 17), (-9262000474292743, 16)); ((48402672830594434, 18), (-8825605357920526, 16)); ((5749315621761909, 17), (-8295657623827684, 16)); ((6597422988218032, 17), (-7677774321048262, 16)); ((737559747377048, 16), (-6978504947933158, 16)); ((8075589522941981, 17), (-6205261829892429, 16)); ((868997872010827, 16), (-5366241481420199, 16)); ((9212252223778579, 17), (-44703376953808915, 17)); ((9636873717464399, 17), (-3527047255308781, 16)); ((9959342058679493, 17), (-25463692616788985, 17)); ((10176238974840521, 17), (-15386991360858354, 17)); ((10285265289355848, 17), (-514718425553177, 16)); ((10285265289355848, 17), (514718425553177, 16)); ((10176238974840521, 17), (15386991360858354, 17)); ((9959342058679493, 17), (25463692616788985, 17)); ((9636873717464399, 17), (3527047255308781, 16)); ((9212252223778579, 17), (44703376953808915, 17)); ((868997872010827, 16), (5366241481420199, 16)); ((8075589522941981, 17), (6205261829892429, 16)); ((737559747377048, 16), (6978504947933158, 16)); ((6597422988218032, 17), (7677774321048262, 16)); ((5749315621761909, 17), (8295657623827684, 16)); ((48402672830594434, 18), (8825605357920526, 16)); ((3879919256962679, 17), (9262000474292743, 16)); ((28784707883322873, 18), (9600218649683075, 16)); ((18466468311091087, 18), (9836681232797473, 16)); ((7968192496169523, 18), (9968934840746495, 16))].
(** legendre.rs:525-557 *)
Definition legendre : list (list (decimal * decimal)) := [[]; legendre_1; legendre_2; legendre_3; legendre_4; legendre_5; legendre_6; legendre_7; legendre_8; legendre_9; legendre_10; legendre_11; legendre_12; legendre_13; legendre_14; legendre_15; legendre_16; legendre_17; legendre_18; legendre_19; legendre_20; legendre_21; legendre_22; legendre_23; legendre_24; legendre_25; legendre_26; legendre_27; legendre_28; legendre_29; legendre_30].

(** hermite.rs:4-4 *)
Definition hermite_1 : list (decimal * decimal) := [((17724538509055159, 16), (0, 0))].
(** hermite.rs:5-8 *)
Definition hermite_2 : list (decimal * decimal) := [((8862269254527579, 16), (-7071067811865475, 16)); ((8862269254527579, 16), (7071067811865475, 16))].
(** hermite.rs:9-13 *)
Definition hermite_3 : list (decimal * decimal) := [((2954089751509194, 16), (-1224744871391589, 15)); ((11816359006036772, 16), (0, 0)); ((2954089751509194, 16), (1224744871391589, 15))].
(** hermite.rs:14-19 *)
Definition hermite_4 : list (decimal * decimal) := [((8131283544724519, 17), (-16506801238857847, 16)); ((8049140900055127, 16), (-5246476232752904, 16)); ((8049140900055127, 16), (5246476232752904, 16)); ((8131283544724519, 17), (16506801238857847, 16))].
(** hermite.rs:20-26 *)
Definition hermite_5 : list (decimal * decimal) := [((19953242059045917, 18), (-20201828704560856, 16)); ((3936193231522411, 16), (-9585724646138185, 16)); ((9453087204829418, 16), (0, 0)); ((3936193231522411, 16), (9585724646138185, 16)); ((19953242059045917, 18), (20201828704560856, 16))].
(** hermite.rs:27-34 *)
Definition hermite_6 : list (decimal * decimal) := [((4530009905508835, 18), (-23506049736744923, 16)); ((15706732032285647, 17), (-1335849074013697, 15)); ((7246295952243924, 16), (-4360774119276165, 16)); ((7246295952243924, 16), (4360774119276165, 16)); ((15706732032285647, 17), (1335849074013697, 15)); ((4530009905508835, 18), (23506049736744923, 16))].
(** hermite.rs:35-43 *)
Definition hermite_7 : list (decimal * decimal) := [((9717812450995199, 19), (-26519613568352334, 16)); ((5451558281912705, 17), (-16735516287674714, 16)); ((4256072526101278, 16), (-8162878828589646, 16)); ((8102646175568072, 16), (0, 0)); ((4256072526101278, 16), (8162878828589646, 16)); ((5451558281912705, 17), (16735516287674714, 16)); ((9717812450995199, 19), (26519613568352334, 16))].
(** hermite.rs:44-53 *)
Definition hermite_8 : list (decimal * decimal) := [((19960407221136783, 20), (-2930637420257244, 15)); ((17077983007413467, 18), (-1981656756695843, 15)); ((20780232581489183, 17), (-11571937124467802, 16)); ((6611470125582415, 16), (-3811869902073221, 16)); ((6611470125582415, 16), (3811869902073221, 16)); ((20780232581489183, 17), (11571937124467802, 16)); ((17077983007413467, 18), (1981656756695843, 15)); ((19960407221136783, 20), (2930637420257244, 15))].
(** hermite.rs:54-64 *)
Definition hermite_9 : list (decimal * decimal) := [((39606977263264365, 21), (-31909932017815277, 16)); ((4943624275536941, 18), (-2266580584531843, 15)); ((8847452739437664, 17), (-1468553289216668, 15)); ((43265155900255564, 17), (-7235510187528376, 16)); ((720235215606051, 15), (0, 0)); ((43265155900255564, 17), (7235510187528376, 16)); ((8847452739437664, 17), (1468553289216668, 15)); ((4943624275536941, 18), (2266580584531843, 15)); ((39606977263264365, 21), (31909932017815277, 16))].
(** hermite.rs:65-76 *)
Definition hermite_10 : list (decimal * decimal) := [((7640432855232641, 21), (-34361591188377374, 16)); ((13436457467812324, 19), (-25327316742327897, 16)); ((33874394455481106, 18), (-17566836492998816, 16)); ((2401386110823147, 16), (-10366108297895136, 16)); ((6108626337353258, 16), (-3429013272237046, 16)); ((6108626337353258, 16), (3429013272237046, 16)); ((2401386110823147, 16), (10366108297895136, 16)); ((33874394455481106, 18), (17566836492998816, 16)); ((13436457467812324, 19), (25327316742327897, 16)); ((7640432855232641, 21), (34361591188377374, 16))].
(** hermite.rs:77-89 *)
Definition hermite_11 : list (decimal * decimal) := [((14395603937142596, 22), (-36684708465595826, 16)); ((34681946632334544, 20), (-27832900997816514, 16)); ((11911395444911507, 18), (-20259480158257555, 16)); ((11722787516770851, 17), (-13265570844949328, 16)); ((42935975235612495, 17), (-6568095668820998, 16)); ((6547592869145916, 16), (0, 0)); ((42935975235612495, 17), (6568095668820998, 16)); ((11722787516770851, 17), (13265570844949328, 16)); ((11911395444911507, 18), (20259480158257555, 16)); ((34681946632334544, 20), (27832900997816514, 16)); ((14395603937142596, 22), (36684708465595826, 16))].
(** hermite.rs:90-103 *)
Definition hermite_12 : list (decimal * decimal) := [((26585516843563044, 23), (-3889724897869782, 15)); ((8573687043587868, 20), (-30206370251208896, 16)); ((390539058462906, 17), (-22795070805010598, 16)); ((5160798561588398, 17), (-15976826351526048, 16)); ((2604923102641611, 16), (-9477883912401638, 16)); ((5701352362624795, 16), (-31424037625435913, 17)); ((5701352362624795, 16), (31424037625435913, 17)); ((2604923102641611, 16), (9477883912401638, 16)); ((5160798561588398, 17), (15976826351526048, 16)); ((390539058462906, 17), (22795070805010598, 16)); ((8573687043587868, 20), (30206370251208896, 16)); ((26585516843563044, 23), (3889724897869782, 15))].
(** hermite.rs:104-118 *)
Definition hermite_13 : list (decimal * decimal) := [((4825731850073125, 23), (-410133759617864, 14)); ((20430360402707087, 21), (-324660897837241, 14)); ((1207459992719386, 18), (-25197356856782376, 16)); ((20862775296169953, 18), (-1853107651601512, 15)); ((1403233206870235, 16), (-12200550365907483, 16)); ((4216162968985432, 16), (-6057638791710601, 16)); ((6043931879211613, 16), (0, 0)); ((4216162968985432, 16), (6057638791710601, 16)); ((1403233206870235, 16), (12200550365907483, 16)); ((20862775296169953, 18), (1853107651601512, 15)); ((1207459992719386, 18), (25197356856782376, 16)); ((20430360402707087, 21), (324660897837241, 14)); ((4825731850073125, 23), (410133759617864, 14))].
(** hermite.rs:119-134 *)
Definition hermite_14 : list (decimal * decimal) := [((8628591168125132, 24), (-4304448570473632, 15)); ((471648435501891, 20), (-34626569336022706, 16)); ((35509261355192297, 20), (-27484707249854026, 16)); ((7850054726457945, 18), (-20951832585077166, 16)); ((6850553422346528, 17), (-14766827311411408, 16)); ((2731056090642464, 16), (-8787137873293994, 16)); ((5364059097120901, 16), (-29174551067256205, 17)); ((5364059097120901, 16), (29174551067256205, 17)); ((2731056090642464, 16), (8787137873293994, 16)); ((6850553422346528, 17), (14766827311411408, 16)); ((7850054726457945, 18), (20951832585077166, 16)); ((35509261355192297, 20), (27484707249854026, 16)); ((471648435501891, 20), (34626569336022706, 16)); ((8628591168125132, 24), (4304448570473632, 15))].
(** hermite.rs:135-151 *)
Definition hermite_15 : list (decimal * decimal) := [((1522475804253521, 24), (-4499990707309392, 15)); ((10591155477110625, 22), (-36699503734044527, 16)); ((10000444123249982, 20), (-2967166927905603, 15)); ((2778068842912775, 18), (-2325732486173858, 15)); ((307800338725461, 16), (-17199925751864888, 16)); ((15848891579593571, 17), (-11361155852109206, 16)); ((4120286874988987, 16), (-5650695832555758, 16)); ((5641003087264174, 16), (0, 0)); ((4120286874988987, 16), (5650695832555758, 16)); ((15848891579593571, 17), (11361155852109206, 16)); ((307800338725461, 16), (17199925751864888, 16)); ((2778068842912775, 18), (2325732486173858, 15)); ((10000444123249982, 20), (2967166927905603, 15)); ((10591155477110625, 22), (36699503734044527, 16)); ((1522475804253521, 24), (4499990707309392, 15))].
(** hermite.rs:152-169 *)
Definition hermite_16 : list (decimal * decimal) := [((26548074740111673, 26), (-4688738939305819, 15)); ((23209808448652032, 23), (-3869447904860123, 15)); ((27118600925378892, 21), (-3176999161979956, 15)); ((9322840086241807, 19), (-25462021578474814, 16)); ((12880311535509989, 18), (-19517879909162539, 16)); ((8381004139898583, 17), (-13802585391988809, 16)); ((2806474585285337, 16), (-8229514491446559, 16)); ((5079294790166137, 16), (-27348104613815244, 17)); ((5079294790166137, 16), (27348104613815244, 17)); ((2806474585285337, 16), (8229514491446559, 16)); ((8381004139898583, 17), (13802585391988809, 16)); ((12880311535509989, 18), (19517879909162539, 16)); ((9322840086241807, 19), (25462021578474814, 16)); ((27118600925378892, 21), (3176999161979956, 15)); ((23209808448652032, 23), (3869447904860123, 15)); ((26548074740111673, 26), (4688738939305819, 15))].
(** hermite.rs:170-188 *)
Definition hermite_17 : list (decimal * decimal) := [((45805789307986096, 27), (-4871345193674403, 15)); ((497707898163077, 22), (-40619466758754745, 16)); ((7112289140021293, 21), (-3378932091141494, 15)); ((2986432866977531, 19), (-27577629157038888, 16)); ((5067349957627545, 18), (-21735028266666205, 16)); ((4092003414975629, 17), (-16129243142212313, 16)); ((17264829767009698, 17), (-10676487257434506, 16)); ((40182646947041206, 17), (-5316330013426548, 16)); ((5309179376248635, 16), (0, 0)); ((40182646947041206, 17), (5316330013426548, 16)); ((17264829767009698, 17), (10676487257434506, 16)); ((4092003414975629, 17), (16129243142212313, 16)); ((5067349957627545, 18), (21735028266666205, 16)); ((2986432866977531, 19), (27577629157038888, 16)); ((7112289140021293, 21), (3378932091141494, 15)); ((497707898163077, 22), (40619466758754745, 16)); ((45805789307986096, 27), (4871345193674403, 15))].
(** hermite.rs:189-208 *)
Definition hermite_18 : list (decimal * decimal) := [((7828199772115908, 27), (-5048364008874467, 15)); ((10467205795792089, 24), (-4248117873568127, 15)); ((1810654481093432, 21), (-3573769068486266, 15)); ((918112686792939, 19), (-2961377505531607, 15)); ((1888522630268417, 18), (-23862990891666858, 16)); ((18640042387544676, 18), (-18355316042616288, 16)); ((9730174764131541, 17), (-13009208583896175, 16)); ((2848072856699793, 16), (-7766829192674116, 16)); ((48349569472545567, 17), (-2582677505190968, 16)); ((48349569472545567, 17), (2582677505190968, 16)); ((2848072856699793, 16), (7766829192674116, 16)); ((9730174764131541, 17), (13009208583896175, 16)); ((18640042387544676, 18), (18355316042616288, 16)); ((1888522630268417, 18), (23862990891666858, 16)); ((918112686792939, 19), (2961377505531607, 15)); ((1810654481093432, 21), (3573769068486266, 15)); ((10467205795792089, 24), (4248117873568127, 15)); ((7828199772115908, 27), (5048364008874467, 15))].
(** hermite.rs:209-229 *)
Definition hermite_19 : list (decimal * decimal) := [((13262970944985234, 28), (-5220271690537482, 15)); ((2163051009863575, 24), (-4428532806603779, 15)); ((4488243147223115, 22), (-376218735196402, 14)); ((27209197763161712, 21), (-3157848818347602, 15)); ((6708775214071804, 19), (-2591133789794543, 15)); ((7988866777723026, 18), (-2049231709850619, 15)); ((50810386909052006, 18), (-15241706193935332, 16)); ((1836327013069971, 16), (-10103683871343114, 16)); ((3916089886130303, 16), (-5035201634238882, 16)); ((5029748882761865, 16), (0, 0)); ((3916089886130303, 16), (5035201634238882, 16)); ((1836327013069971, 16), (10103683871343114, 16)); ((50810386909052006, 18), (15241706193935332, 16)); ((7988866777723026, 18), (2049231709850619, 15)); ((6708775214071804, 19), (2591133789794543, 15)); ((27209197763161712, 21), (3157848818347602, 15)); ((4488243147223115, 22), (376218735196402, 14)); ((2163051009863575, 24), (4428532806603779, 15)); ((13262970944985234, 28), (5220271690537482, 15))].
(** hermite.rs:230-251 *)
Definition hermite_20 : list (decimal * decimal) := [((22293936455341447, 29), (-5387480890011233, 15)); ((43993409922731747, 26), (-4603682449550744, 15)); ((10860693707692782, 23), (-3944764040115625, 15)); ((780255647853206, 20), (-33478545673832163, 16)); ((22833863601635365, 20), (-27888060584281305, 16)); ((32437733422378567, 19), (-22549740020892757, 16)); ((24810520887463643, 18), (-17385377121165861, 16)); ((1090172060200233, 16), (-1234076215395323, 15)); ((28667550536283415, 17), (-7374737285453944, 16)); ((4622436696006101, 16), (-24534070830090124, 17)); ((4622436696006101, 16), (24534070830090124, 17)); ((28667550536283415, 17), (7374737285453944, 16)); ((1090172060200233, 16), (1234076215395323, 15)); ((24810520887463643, 18), (17385377121165861, 16)); ((32437733422378567, 19), (22549740020892757, 16)); ((22833863601635365, 20), (27888060584281305, 16)); ((780255647853206, 20), (33478545673832163, 16)); ((10860693707692782, 23), (3944764040115625, 15)); ((43993409922731747, 26), (4603682449550744, 15)); ((22293936455341447, 29), (5387480890011233, 15))].
(** hermite.rs:252-274 *)
Definition hermite_21 : list (decimal * decimal) := [((3720365070136023, 29), (-5550351873264678, 15)); ((8818611242049933, 26), (-4773992343411219, 15)); ((25712301800593154, 24), (-412199554749184, 14)); ((217188489805667, 20), (-35319728771376777, 16)); ((7478398867310063, 20), (-2979991207704598, 15)); ((12549820417264088, 19), (-2453552124512838, 15)); ((11414065837434397, 18), (-19449629491862537, 16)); ((601796466589123, 16), (-1448934250650732, 15)); ((19212032406699775, 17), (-961499634418369, 15)); ((3816690736135022, 16), (-47945070707910753, 17)); ((47902370312017756, 17), (0, 0)); ((3816690736135022, 16), (47945070707910753, 17)); ((19212032406699775, 17), (961499634418369, 15)); ((601796466589123, 16), (1448934250650732, 15)); ((11414065837434397, 18), (19449629491862537, 16)); ((12549820417264088, 19), (2453552124512838, 15)); ((7478398867310063, 20), (2979991207704598, 15)); ((217188489805667, 20), (35319728771376777, 16)); ((25712301800593154, 24), (412199554749184, 14)); ((8818611242049933, 26), (4773992343411219, 15)); ((3720365070136023, 29), (5550351873264678, 15))].
(** hermite.rs:275-298 *)
Definition hermite_22 : list (decimal * decimal) := [((6167183424404064, 30), (-57092013532052635, 16)); ((1744339007547978, 26), (-4939834131060176, 15)); ((5966990986059659, 24), (-4294312480593161, 15)); ((5884287563301018, 22), (-3710701532877805, 15)); ((236551285525104, 19), (-31652659092021374, 16)); ((4648850508842517, 19), (-2645637441058173, 15)); ((4978399335051638, 18), (-21442335927985345, 16)); ((3114037088442385, 17), (-16558743732864225, 16)); ((11910236095878239, 17), (-11767139584812445, 16)); ((2869714332469073, 16), (-703686097170007, 15)); ((44354522643495903, 17), (-2341791399309906, 16)); ((44354522643495903, 17), (2341791399309906, 16)); ((2869714332469073, 16), (703686097170007, 15)); ((11910236095878239, 17), (11767139584812445, 16)); ((3114037088442385, 17), (16558743732864225, 16)); ((4978399335051638, 18), (21442335927985345, 16)); ((4648850508842517, 19), (2645637441058173, 15)); ((236551285525104, 19), (31652659092021374, 16)); ((5884287563301018, 22), (3710701532877805, 15)); ((5966990986059659, 24), (4294312480593161, 15)); ((1744339007547978, 26), (4939834131060176, 15)); ((6167183424404064, 30), (57092013532052635, 16))].
(** hermite.rs:299-323 *)
Definition hermite_23 : list (decimal * decimal) := [((10160384620636804, 31), (-5864309498984572, 15)); ((340831409803052, 26), (-5101534610476677, 15)); ((13596296504028966, 25), (-4462091173740006, 15)); ((1555339329145767, 22), (-3884472708106102, 15)); ((7249295918002263, 21), (-33451271599412244, 16)); ((16556169914187427, 20), (-2831803787126157, 15)); ((2069567874960639, 18), (-2337016211474456, 15)); ((1520708400448414, 17), (-1855677037671371, 15)); ((6889028942908743, 17), (-13840395856824952, 16)); ((19864489857802245, 17), (-9191514654425638, 16)); ((372143824877565, 15), (-4585383500681048, 16)); ((4581965855932132, 16), (0, 0)); ((372143824877565, 15), (4585383500681048, 16)); ((19864489857802245, 17), (9191514654425638, 16)); ((6889028942908743, 17), (13840395856824952, 16)); ((1520708400448414, 17), (1855677037671371, 15)); ((2069567874960639, 18), (2337016211474456, 15)); ((16556169914187427, 20), (2831803787126157, 15)); ((7249295918002263, 21), (33451271599412244, 16)); ((1555339329145767, 22), (3884472708106102, 15)); ((13596296504028966, 25), (4462091173740006, 15)); ((340831409803052, 26), (5101534610476677, 15)); ((10160384620636804, 31), (5864309498984572, 15))].
(** hermite.rs:324-349 *)
Definition hermite_24 : list (decimal * decimal) := [((16643684964891008, 32), (-601592556142574, 14)); ((6584620243078167, 28), (-5259382927668044, 15)); ((30462542699875555, 26), (-4625662756423788, 15)); ((4018971174941438, 23), (-4053664402448149, 15)); ((21582457049023414, 22), (-35200068130345246, 16)); ((5688691636404392, 20), (-30125461375655647, 16)); ((8236924826884169, 19), (-2523881017011427, 15)); ((7048355810072673, 18), (-2049003573661699, 15)); ((37445470503230736, 18), (-15842500109616942, 16)); ((12773962178455917, 17), (-11267608176112451, 16)); ((2861795353464429, 16), (-6741711070372123, 16)); ((42693116386869934, 17), (-22441454747251557, 17)); ((42693116386869934, 17), (22441454747251557, 17)); ((2861795353464429, 16), (6741711070372123, 16)); ((12773962178455917, 17), (11267608176112451, 16)); ((37445470503230736, 18), (15842500109616942, 16)); ((7048355810072673, 18), (2049003573661699, 15)); ((8236924826884169, 19), (2523881017011427, 15)); ((5688691636404392, 20), (30125461375655647, 16)); ((21582457049023414, 22), (35200068130345246, 16)); ((4018971174941438, 23), (4053664402448149, 15)); ((30462542699875555, 26), (4625662756423788, 15)); ((6584620243078167, 28), (5259382927668044, 15)); ((16643684964891008, 32), (601592556142574, 14))].
(** hermite.rs:350-376 *)
Definition hermite_25 : list (decimal * decimal) := [((27119235140383954, 33), (-6164272434052452, 15)); ((1258814987746549, 28), (-5413636355280033, 15)); ((6719638417706253, 26), (-4785320367352224, 15)); ((1017038250301848, 23), (-4218609444386561, 15)); ((6257032499691108, 22), (-3690282876998356, 15)); ((18915972957340455, 21), (-3188294924425105, 15)); ((31508363874548415, 20), (-2705320237173026, 15)); ((311570872012563, 17), (-2236420130267281, 15)); ((19243098965408895, 18), (-17780011243371474, 16)); ((7688899517580887, 17), (-1327280702073084, 15)); ((20362113667812404, 17), (-8819827562138213, 16)); ((36308898927589045, 17), (-4401472986453083, 16)); ((43986872216948497, 17), (0, 0)); ((36308898927589045, 17), (4401472986453083, 16)); ((20362113667812404, 17), (8819827562138213, 16)); ((7688899517580887, 17), (1327280702073084, 15)); ((19243098965408895, 18), (17780011243371474, 16)); ((311570872012563, 17), (2236420130267281, 15)); ((31508363874548415, 20), (2705320237173026, 15)); ((18915972957340455, 21), (3188294924425105, 15)); ((6257032499691108, 22), (3690282876998356, 15)); ((1017038250301848, 23), (4218609444386561, 15)); ((6719638417706253, 26), (4785320367352224, 15)); ((1258814987746549, 28), (5413636355280033, 15)); ((27119235140383954, 33), (6164272434052452, 15))].
(** hermite.rs:377-404 *)
Definition hermite_26 : list (decimal * decimal) := [((4396916094753858, 33), (-6309550385625694, 15)); ((23831486593721533, 30), (-5564524981950103, 15)); ((14609999339815978, 27), (-4941324957241379, 15)); ((25244940344905305, 25), (-4379602662983305, 15)); ((17701063373973586, 23), (-3856288419909149, 15)); ((6103291717395996, 21), (-335942718235083, 14)); ((11622970160310945, 20), (-2881762219543087, 15)); ((13190647223238565, 19), (-2418415764773779, 15)); ((9397901291159578, 18), (-19658547856411366, 16)); ((435982272172508, 16), (-15213615166519214, 16)); ((13511332791178782, 17), (-10827330110778832, 16)); ((2846322411767845, 16), (-6480952139934484, 16)); ((41204365059036924, 17), (-2157778562434634, 16)); ((41204365059036924, 17), (2157778562434634, 16)); ((2846322411767845, 16), (6480952139934484, 16)); ((13511332791178782, 17), (10827330110778832, 16)); ((435982272172508, 16), (15213615166519214, 16)); ((9397901291159578, 18), (19658547856411366, 16)); ((13190647223238565, 19), (2418415764773779, 15)); ((11622970160310945, 20), (2881762219543087, 15)); ((6103291717395996, 21), (335942718235083, 14)); ((17701063373973586, 23), (3856288419909149, 15)); ((25244940344905305, 25), (4379602662983305, 15)); ((14609999339815978, 27), (4941324957241379, 15)); ((23831486593721533, 30), (5564524981950103, 15)); ((4396916094753858, 33), (6309550385625694, 15))].
(** hermite.rs:405-433 *)
Definition hermite_27 : list (decimal * decimal) := [((7095779297051429, 34), (-64519401407534716, 16)); ((44707724573931376, 31), (-5712255552816536, 15)); ((31341176136230647, 28), (-5093910003113184, 15)); ((6155031578231804, 25), (-45369066633724415, 16)); ((4895400409699535, 23), (-4018318670408739, 15)); ((19152809005952912, 22), (-3526275340134353, 15)); ((41467580043841464, 21), (-3053582419822255, 15)); ((5367696156881122, 19), (-25954163389108182, 16)); ((4381279835792532, 18), (-21482966453616275, 16)); ((23415933625341938, 18), (-17095607392603371, 16)); ((8417308108405192, 17), (-1277066817339858, 15)); ((20737048075100944, 17), (-849011342060103, 15)); ((35451730409975385, 17), (-42380790054385303, 17)); ((42357728801505956, 17), (0, 0)); ((35451730409975385, 17), (42380790054385303, 17)); ((20737048075100944, 17), (849011342060103, 15)); ((8417308108405192, 17), (1277066817339858, 15)); ((23415933625341938, 18), (17095607392603371, 16)); ((4381279835792532, 18), (21482966453616275, 16)); ((5367696156881122, 19), (25954163389108182, 16)); ((41467580043841464, 21), (3053582419822255, 15)); ((19152809005952912, 22), (3526275340134353, 15)); ((4895400409699535, 23), (4018318670408739, 15)); ((6155031578231804, 25), (45369066633724415, 16)); ((31341176136230647, 28), (5093910003113184, 15)); ((44707724573931376, 31), (5712255552816536, 15)); ((7095779297051429, 34), (64519401407534716, 16))].
(** hermite.rs:434-463 *)
Definition hermite_28 : list (decimal * decimal) := [((11401393479036659, 35), (-6591605442367743, 15)); ((8315937951206773, 31), (-585701464138285, 14)); ((6639436714909621, 28), (-5243285373202936, 15)); ((14758531682776932, 26), (-4690756523943118, 15)); ((13256825015417047, 24), (-41766367421292685, 16)); ((5857719720992982, 22), (-36891342384616794, 16)); ((14345504229714393, 21), (-32211120765614556, 16)); ((2106181000240319, 19), (-2767795352913594, 15)); ((19573312944089908, 19), (-23257498426564407, 16)); ((1196842321435482, 17), (-18923604968376853, 16)); ((4951488928989816, 17), (-1465537263457409, 15)); ((1413946097869548, 16), (-10435352737542083, 16)); ((28256139125938884, 17), (-6248367195052092, 16)); ((39860471782645124, 17), (-20806738269073688, 17)); ((39860471782645124, 17), (20806738269073688, 17)); ((28256139125938884, 17), (6248367195052092, 16)); ((1413946097869548, 16), (10435352737542083, 16)); ((4951488928989816, 17), (1465537263457409, 15)); ((1196842321435482, 17), (18923604968376853, 16)); ((19573312944089908, 19), (23257498426564407, 16)); ((2106181000240319, 19), (2767795352913594, 15)); ((14345504229714393, 21), (32211120765614556, 16)); ((5857719720992982, 22), (36891342384616794, 16)); ((13256825015417047, 24), (41766367421292685, 16)); ((14758531682776932, 26), (4690756523943118, 15)); ((6639436714909621, 28), (5243285373202936, 15)); ((8315937951206773, 31), (585701464138285, 14)); ((11401393479036659, 35), (6591605442367743, 15))].
(** hermite.rs:464-494 *)
Definition hermite_29 : list (decimal * decimal) := [((18244608527672462, 36), (-672869519860885, 14)); ((153450044460532, 30), (-599897128946382, 14)); ((13901072714495982, 29), (-5389640521966752, 15)); ((34841301613084254, 27), (-4841363651059164, 15)); ((35203123276007064, 25), (-433147829381915, 14)); ((1749229129949943, 22), (-38482667922136202, 16)); ((4823073497647774, 21), (-33846451410922143, 16)); ((7990920354521803, 20), (-29358825042901264, 16)); ((840792506140262, 18), (-2498585691019404, 15)); ((5845503545271507, 18), (-2070181076053428, 15)); ((2763965559202372, 17), (-16486229138923163, 16)); ((907688422155782, 16), (-1232215755084753, 15)); ((2101426944492106, 16), (-8194986812709115, 16)); ((34641893907167015, 17), (-4091646363949287, 16)); ((40897117463522964, 17), (0, 0)); ((34641893907167015, 17), (4091646363949287, 16)); ((2101426944492106, 16), (8194986812709115, 16)); ((907688422155782, 16), (1232215755084753, 15)); ((2763965559202372, 17), (16486229138923163, 16)); ((5845503545271507, 18), (2070181076053428, 15)); ((840792506140262, 18), (2498585691019404, 15)); ((7990920354521803, 20), (29358825042901264, 16)); ((4823073497647774, 21), (33846451410922143, 16)); ((1749229129949943, 22), (38482667922136202, 16)); ((35203123276007064, 25), (433147829381915, 14)); ((34841301613084254, 27), (4841363651059164, 15)); ((13901072714495982, 29), (5389640521966752, 15)); ((153450044460532, 30), (599897128946382, 14)); ((18244608527672462, 36), (672869519860885, 14))].
(** hermite.rs:495-526 *)
Definition hermite_30 : list (decimal * decimal) := [((29082547001312045, 37), (-6863345293529892, 15)); ((2810333602750875, 32), (-6138279220123935, 15)); ((28786070805487023, 30), (-5533147151567496, 15)); ((8106186297463033, 27), (-4988918968589944, 15)); ((9178580424378485, 25), (-44830553570925185, 16)); ((5108522450775958, 23), (-4003908603861229, 15)); ((1579094887324711, 21), (-354444387315535, 14)); ((2938725228922988, 20), (-30999705295864417, 16)); ((34831012431868485, 20), (-26671321245356174, 16)); ((27379224730676565, 19), (-2243391467761504, 15)); ((14703829704826678, 18), (-1826741143603688, 15)); ((55144176870234186, 18), (-14155278001981886, 16)); ((14673584754089003, 17), (-10083382710467235, 16)); ((28013093083921264, 17), (-6039210586255523, 16)); ((38639488954181395, 17), (-2011285765488715, 16)); ((38639488954181395, 17), (2011285765488715, 16)); ((28013093083921264, 17), (6039210586255523, 16)); ((14673584754089003, 17), (10083382710467235, 16)); ((55144176870234186, 18), (14155278001981886, 16)); ((14703829704826678, 18), (1826741143603688, 15)); ((27379224730676565, 19), (2243391467761504, 15)); ((34831012431868485, 20), (26671321245356174, 16)); ((2938725228922988, 20), (30999705295864417, 16)); ((1579094887324711, 21), (354444387315535, 14)); ((5108522450775958, 23), (4003908603861229, 15)); ((9178580424378485, 25), (44830553570925185, 16)); ((8106186297463033, 27), (4988918968589944, 15)); ((28786070805487023, 30), (5533147151567496, 15)); ((2810333602750875, 32), (6138279220123935, 15)); ((29082547001312045, 37), (6863345293529892, 15))].
(** hermite.rs:528-560 *)
Definition hermite : list (list (decimal * decimal)) := [[]; hermite_1; hermite_2; hermite_3; hermite_4; hermite_5; hermite_6; hermite_7; hermite_8; hermite_9; hermite_10; hermite_11; hermite_12; hermite_13; hermite_14; hermite_15; hermite_16; hermite_17; hermite_18; hermite_19; hermite_20; hermite_21; hermite_22; hermite_23; hermite_24; hermite_25; hermite_26; hermite_27; hermite_28; hermite_29; hermite_30].

(** laguerre.rs:4-4 *)
Definition laguerre_1 : list (decimal * decimal) := [((1, 0), (1, 0))].
(** laguerre.rs:5-8 *)
Definition laguerre_2 : list (decimal * decimal) := [((8535533905932737, 16), (585786437626905, 15)); ((14644660940672624, 17), (3414213562373095, 15))].
(** laguerre.rs:9-13 *)
Definition laguerre_3 : list (decimal * decimal) := [((7110930099291729, 16), (4157745567834791, 16)); ((278517733569241, 15), (2294280360279042, 15)); ((10389256501586133, 18), (62899450829374794, 16))].
(** laguerre.rs:14-19 *)
Definition laguerre_4 : list (decimal * decimal) := [((6031541043416337, 16), (3225476896193924, 16)); ((35741869243779956, 17), (17457611011583465, 16)); ((38887908515005405, 18), (4536620296921128, 15)); ((5392947055613296, 19), (9395070912301133, 15))].
(** laguerre.rs:20-26 *)
Definition laguerre_5 : list (decimal * decimal) := [((5217556105828085, 16), (26356031971814087, 17)); ((398666811083176, 15), (14134030591065168, 16)); ((7594244968170769, 17), (3596425771040722, 15)); ((36117586799220545, 19), (7085810005858837, 15)); ((23369972385776248, 21), (12640800844275782, 15))].
(** laguerre.rs:27-34 *)
Definition laguerre_6 : list (decimal * decimal) := [((45896467394996476, 17), (2228466041792607, 16)); ((41700083077212, 14), (11889321016726226, 16)); ((11337338207404488, 17), (2992736326059314, 15)); ((10399197453149087, 18), (577514356910451, 14)); ((26101720281493265, 20), (983746741838259, 14)); ((8985479064296213, 22), (15982873980601703, 15))].
(** laguerre.rs:35-43 *)
Definition laguerre_7 : list (decimal * decimal) := [((40931895170127336, 17), (19304367656036225, 17)); ((4218312778617202, 16), (10266648953391924, 16)); ((1471263486575053, 16), (2567876744950746, 15)); ((20633514468716942, 18), (4900353084526484, 15)); ((1074010143280746, 18), (818215344456286, 14)); ((15865464348564196, 21), (12734180291797815, 15)); ((31703154789955624, 24), (1939572786226254, 14))].
(** laguerre.rs:44-53 *)
Definition laguerre_8 : list (decimal * decimal) := [((36918858934163495, 17), (17027963230510093, 17)); ((4187867808143447, 16), (90370177679938, 14)); ((17579498663717255, 17), (2251086629866131, 15)); ((33343492261215794, 18), (4266700170287659, 15)); ((27945362352256834, 19), (70459054023934655, 16)); ((9076508773358139, 20), (10758516010180996, 15)); ((848574671627257, 21), (15740678641278004, 15)); ((10480011748715153, 25), (22863131736889265, 15))].
(** laguerre.rs:54-64 *)
Definition laguerre_9 : list (decimal * decimal) := [((33612642179796287, 17), (1523222277318084, 16)); ((4112139804239856, 16), (8072200227422562, 16)); ((1992875253708841, 16), (2005135155619347, 15)); ((4746056276565138, 17), (3783473973331233, 15)); ((5599626610794551, 18), (6204956777876613, 15)); ((30524976709320943, 20), (9372985251687576, 15)); ((6592123026075329, 21), (13466236911092095, 15)); ((41107693303495754, 24), (18833597788991696, 15)); ((3290874030350679, 26), (26374071890927375, 15))].
(** laguerre.rs:65-76 *)
Definition laguerre_10 : list (decimal * decimal) := [((3084411157650173, 16), (1377934705404926, 16)); ((4011199291552761, 16), (729454549503171, 15)); ((2180682876118096, 16), (18083429017403159, 16)); ((62087456098677773, 18), (34014336978548996, 16)); ((95015169751811, 16), (5552496140063804, 15)); ((7530083885875384, 19), (8330152746764497, 15)); ((28259233495995642, 21), (11843785837900066, 15)); ((4249313984962698, 22), (16279257831378104, 15)); ((1839564823979633, 24), (2199658581198076, 14)); ((991182721960906, 27), (2992069701227389, 14))].
(** laguerre.rs:77-89 *)
Definition laguerre_11 : list (decimal * decimal) := [((28493321289419904, 17), (12579644218796757, 17)); ((38972088952785106, 17), (6654182558392279, 16)); ((23278183184899082, 17), (16471505458721691, 16)); ((7656445354619705, 17), (3091138143035255, 15)); ((14393282767350744, 18), (5029284401579833, 15)); ((15188808464848761, 19), (7509887863806617, 15)); ((8513122435471927, 20), (10605950999546968, 15)); ((22924038795745057, 22), (14431613758064186, 15)); ((24863537027677806, 24), (1917885740321468, 14)); ((7712626933691416, 26), (25217709339677562, 15)); ((28837758683235913, 30), (3349719284717553, 14))].
(** laguerre.rs:90-103 *)
Definition laguerre_12 : list (decimal * decimal) := [((26473137105543654, 17), (1157221173580205, 16)); ((3777592758731421, 16), (6117574845151308, 16)); ((24408201131987906, 17), (1512610269776419, 15)); ((9044922221168182, 17), (2833751337743507, 15)); ((20102381154634218, 18), (45992276394183484, 16)); ((26639735418653335, 19), (6844525453115177, 15)); ((2032315926630013, 19), (9621316842456867, 15)); ((8365055856819926, 21), (13006054993306348, 15)); ((16684938765409212, 23), (17116855187462257, 15)); ((1342391030515004, 24), (22151090379397004, 15)); ((30616016350351023, 28), (28487967250984, 12)); ((8148077467426094, 31), (3709912104446692, 14))].
(** laguerre.rs:104-118 *)
Definition laguerre_13 : list (decimal * decimal) := [((24718870842995047, 17), (10714238847225208, 17)); ((36568882290052845, 17), (5661318990404021, 16)); ((25256242005766244, 17), (13985643364510194, 16)); ((1034707580241851, 16), (2616597108406411, 15)); ((2643275441556194, 17), (42388459290170335, 16)); ((4220396040254825, 18), (6292256271140074, 15)); ((41188177047274074, 20), (8815001941186978, 15)); ((23515473981553592, 21), (11861403588811243, 15)); ((7317311620249228, 22), (15510762037703753, 15)); ((11088416257040026, 24), (1988463566388023, 14)); ((6770826692205984, 26), (25185263864677758, 15)); ((1159979959905093, 28), (31800386301947267, 15)); ((22450932038927516, 33), (4072300866926558, 14))].
(** laguerre.rs:119-134 *)
Definition laguerre_14 : list (decimal * decimal) := [((23181557714485496, 17), (9974750703259747, 17)); ((3537846915975482, 16), (5268576488519032, 16)); ((25873461024543143, 17), (13006291212514964, 16)); ((11548289355692445, 17), (24308010787308443, 16)); ((3319209215933767, 17), (39321028222932184, 16)); ((6192869437006678, 18), (5825536218301709, 15)); ((7398903778673914, 19), (8140240141565144, 15)); ((5490719466841746, 20), (1091649950736602, 14)); ((2409585764085411, 21), (1421080501116129, 14)); ((5801543981676581, 23), (18104892220218098, 15)); ((6819314692485005, 25), (22723381628269625, 15)); ((3221207751894856, 27), (28272981723248204, 15)); ((4221352440516672, 30), (35149443660592425, 15)); ((6052375022289209, 34), (44366081711117424, 15))].
(** laguerre.rs:135-151 *)
Definition laguerre_15 : list (decimal * decimal) := [((2182348859400943, 16), (9330781201728192, 17)); ((34221017792287955, 17), (4926917403018839, 16)); ((2630275779416778, 16), (12155954120709496, 16)); ((12642581810592993, 17), (22699495262037437, 16)); ((4020686492100045, 17), (3667622721751437, 15)); ((8563877803611772, 18), (5425336627413554, 15)); ((12124361472142422, 19), (7565916226613068, 15)); ((11167439234425123, 20), (10120228568019114, 15)); ((6459926762022831, 21), (13130282482175724, 15)); ((22263169070962413, 23), (1665440770832996, 14)); ((4227430384979312, 24), (2077647889944877, 14)); ((39218972670410663, 27), (2562389422672878, 14)); ((14565152640730893, 29), (3140751916975394, 14)); ((14830270511133122, 32), (3853068330648601, 14)); ((16005949062110965, 36), (48026085572685794, 15))].
(** laguerre.rs:152-169 *)
Definition laguerre_16 : list (decimal * decimal) := [((2061517149578049, 16), (8764941047892776, 17)); ((3310578549508783, 16), (4626963289150804, 16)); ((2657957776442144, 16), (11410577748312265, 16)); ((13629693429637874, 17), (21292836450983805, 16)); ((4732892869412563, 17), (34370866338932067, 16)); ((11299900080339598, 18), (5078018614549768, 15)); ((18490709435263271, 19), (7070338535048234, 15)); ((2042719153082809, 19), (9438314336391938, 15)); ((14844586873981502, 21), (1221422336886616, 14)); ((6828319330871331, 22), (15441527368781617, 15)); ((18810248410797222, 24), (19180156856753136, 15)); ((2862350242973897, 25), (23515905693991908, 15)); ((21270790332241214, 28), (2857872974288214, 14)); ((629796700251788, 29), (3458339870228662, 14)); ((5050473700035608, 33), (4194045264768833, 14)); ((4161462370372851, 37), (5170116033954332, 14))].
(** laguerre.rs:170-188 *)
Definition laguerre_17 : list (decimal * decimal) := [((195332205251757, 15), (8263821470894772, 17)); ((3203753572745514, 16), (43615032355871114, 17)); ((2673297263571719, 16), (1075176577511429, 15)); ((14512985435876014, 17), (20051935316492315, 16)); ((5443694324533884, 17), (32342561240474432, 16)); ((1435729776606191, 17), (47735135137001965, 16)); ((26628247355727844, 19), (6637829205364953, 15)); ((3436797271563036, 19), (88466855111698, 13)); ((3027551783782883, 20), (11425529319373354, 15)); ((1768515053231684, 21), (14407823037481318, 15)); ((6576272886810413, 23), (1783828473070114, 14)); ((14697309321595616, 25), (21778268257722267, 15)); ((1816910362555461, 26), (263153178112488, 13)); ((1095401388928676, 28), (31581771680456733, 15)); ((2617373882223381, 31), (377960938374771, 13)); ((1672935693146147, 34), (45375716533988964, 15)); ((10656263162740864, 39), (55389751789839615, 15))].
(** laguerre.rs:189-208 *)
Definition laguerre_18 : list (decimal * decimal) := [((1855886031469319, 16), (7816916666970553, 17)); ((3101817663702191, 16), (4124900852591291, 16)); ((26786656714853346, 17), (10165201796235392, 16)); ((15297974746807239, 17), (1894888509969761, 15)); ((6143491786096046, 17), (305435311320266, 14)); ((17687213080772597, 18), (45042055388898925, 16)); ((3660179767759848, 18), (6256725073949111, 15)); ((5406227870077252, 19), (832782515660563, 14)); ((56169650512141573, 21), (1073799004775761, 14)); ((40153078837011224, 22), (1351365620755509, 14)); ((19146698566756363, 23), (16689306281930104, 15)); ((5836095268631481, 24), (20310767626267744, 15)); ((10717112669553731, 26), (244406813592837, 13)); ((1089098713888804, 27), (29168208662579616, 15)); ((53866647483783116, 31), (34627927065660174, 15)); ((10498659780356833, 33), (4104181677280876, 14)); ((5405398451631025, 36), (4883392271608652, 14)); ((26916532692009873, 41), (5909054643590125, 14))].
(** laguerre.rs:209-229 *)
Definition laguerre_19 : list (decimal * decimal) := [((17676847491590483, 17), (7415878375720486, 17)); ((3004781436072563, 16), (391268613319995, 15)); ((26759954703817723, 17), (9639573439979584, 16)); ((1599133721355825, 16), (1796175582068328, 15)); ((6824937997615013, 17), (2893651381873784, 15)); ((21239307606544574, 18), (4264215539627767, 15)); ((4841627351148447, 18), (5918141561644048, 15)); ((8049127473813773, 19), (7868618915334735, 15)); ((9652472093153588, 20), (10132423716815266, 15)); ((820730525805109, 20), (12730881463842397, 15)); ((4830566724730854, 22), (15691278339835888, 15)); ((19049913611232925, 24), (1904899320982355, 14)); ((4816684630928075, 25), (22850849760829483, 15)); ((7348258839551234, 27), (27160669327411448, 15)); ((6202275387572623, 29), (3206912225186224, 14)); ((25414308430154715, 32), (3771290580121965, 14)); ((40788612968257876, 35), (443173627958315, 13)); ((17077501875939235, 38), (52312902457404384, 15)); ((6715064649908, 39), (6280242315350038, 14))].
(** laguerre.rs:230-251 *)
Definition laguerre_20 : list (decimal * decimal) := [((1687468018511337, 16), (7053988969198874, 17)); ((2912543620060606, 16), (37212681800161157, 17)); ((2666861028669966, 16), (9165821024832738, 16)); ((16600245326950186, 17), (17073065310283435, 16)); ((7482606466879074, 17), (2749199255309432, 15)); ((2496441730928259, 17), (4048925313850888, 15)); ((62025508445721095, 19), (5615174970861617, 15)); ((11449623864768774, 19), (7459017453671063, 15)); ((15574177302780828, 20), (9594392869581098, 15)); ((15401440865224536, 21), (12038802546964316, 15)); ((1086486366517955, 21), (1481429344263074, 14)); ((533012090955661, 22), (17948895520519375, 15)); ((17579811790505475, 25), (2147878824028501, 14)); ((3725502402512163, 26), (25451702793186904, 15)); ((476752925157805, 27), (2993255463170061, 14)); ((33728442433624615, 31), (35013434240479, 12)); ((11550143395003684, 33), (4083305705672857, 14)); ((15395221405823035, 36), (476199940473465, 13)); ((5286442725568928, 39), (55810795750063896, 15)); ((16564566124990854, 44), (6652441652561575, 14))].
(** laguerre.rs:252-274 *)
Definition laguerre_21 : list (decimal * decimal) := [((16142010018163386, 17), (6725781792316145, 17)); ((28249356458300917, 17), (35477289532351297, 17)); ((2652545755138955, 16), (8736601667786427, 16)); ((17131939639001792, 17), (162686994192921, 14)); ((81126625892352, 15), (26186264105455432, 16)); ((28816301767768913, 18), (385465213810976, 14)); ((77342394261186035, 19), (5342369280622434, 15)); ((1567481390421157, 18), (7091168813219674, 15)); ((23842265876341067, 20), (9112778854269706, 15)); ((26930073439685737, 21), (11421771762378382, 15)); ((22247907936450205, 22), (14036270697873759, 15)); ((13173344974322964, 23), (1697895269278384, 14)); ((5443952290646455, 24), (20278509414993742, 15)); ((15163662051980326, 26), (23971845587151478, 15)); ((27178831180588325, 28), (28107528600944306, 15)); ((2942519354071946, 29), (3275149741056083, 14)); ((17590740357976582, 32), (3799718781926095, 14)); ((5073802227171899, 34), (43985245757142216, 15)); ((5659720870324164, 37), (5094735118993992, 14)); ((16062609247991833, 41), (5932599412022999, 14)); ((40441339271160045, 46), (7025568862801893, 14))].
(** laguerre.rs:275-298 *)
Definition laguerre_22 : list (decimal * decimal) := [((15470198763988863, 17), (6426762874480897, 17)); ((2741750823285574, 16), (3389672548149106, 16)); ((26340970153563764, 17), (8345899854491785, 16)); ((17593460926307705, 17), (15537133867500255, 16)); ((8712562217221223, 17), (2500006236736173, 15)); ((3275268789653955, 17), (3678420344463637, 15)); ((9424900256998475, 18), (5095349068968738, 15)); ((20773357526546648, 19), (675883551581355, 14)); ((34916737149231, 17), (8678853313678427, 15)); ((4438219314066251, 20), (1086768689354057, 14)); ((4214229901104724, 21), (1334045105149524, 14)); ((29406682461302104, 23), (1611581133876631, 14)); ((14761938263897911, 24), (19217003684901353, 15)); ((5186423025724995, 25), (2267331660143459, 14)); ((12305262515544499, 27), (2652231958763714, 14)); ((18804655096314958, 29), (3081335794450656, 14)); ((17355641391268615, 31), (3561333520319617, 14)); ((8831402308327573, 33), (41016968598471685, 15)); ((21607186468182118, 36), (4716675784915352, 14)); ((20311199675834204, 39), (54297385256578885, 15)); ((479790352099101, 41), (6285709624629903, 14)); ((9780246506683717, 47), (739955070085995, 13))].
(** laguerre.rs:299-323 *)
Definition laguerre_23 : list (decimal * decimal) := [((1485197990820251, 16), (6153203775752009, 17)); ((266276342222034, 15), (3245113291545522, 16)); ((26123706746535463, 17), (7988739686929834, 16)); ((1799149140382924, 16), (14868863342221967, 16)); ((9280788216399254, 17), (2391755829792768, 15)); ((36735792594760786, 18), (35177974425035337, 16)); ((11260589222543752, 18), (4870560368733452, 15)); ((2677540143127065, 18), (64569913067677405, 16)); ((4923896728665716, 19), (8285651892598002, 15)); ((6956649894244136, 20), (10367009043445767, 15)); ((7476361523134302, 21), (12713825028162594, 15)); ((6030632412463128, 22), (15341687572888508, 15)); ((3588339690021635, 23), (1826974239389599, 14)); ((15405512400611729, 25), (21521727850814163, 15)); ((4639077530349208, 26), (25127477130115498, 15)); ((9446912374131525, 28), (29125175108751016, 15)); ((12397411693143862, 30), (3356489656311642, 14)); ((982116826801175, 31), (3851445967718072, 14)); ((4281846844983853, 34), (4406980781487121, 14)); ((8943238836296921, 37), (5037522660304375, 14)); ((7129396795318294, 40), (5766830435043413, 14)); ((14107671088951859, 44), (6640287306834517, 14)); ((23446147663116474, 49), (7774322728471232, 14))].
(** laguerre.rs:324-349 *)
Definition laguerre_24 : list (decimal * decimal) := [((14281197333475043, 17), (5901985218150761, 17)); ((25877410751744107, 17), (3112391461984835, 16)); ((2588067072728734, 16), (7660969055459361, 16)); ((18332268897778237, 17), (14255975908036125, 16)); ((9816627262992299, 17), (22925620586321904, 16)); ((4073247815141022, 17), (33707742642089986, 16)); ((13226019405120549, 18), (466508370346717, 14)); ((33693490584784146, 19), (6181535118736765, 15)); ((6721625640935707, 19), (7927539247172152, 15)); ((10446121465927847, 20), (9912098015077705, 15)); ((12544721977993773, 21), (12146102711729764, 15)); ((1151315812737323, 21), (14642732289596674, 15)); ((7960812959133895, 23), (17417992646508978, 15)); ((4072858987550192, 24), (20491460082616424, 15)); ((1507008226292658, 25), (23887329848169735, 15)); ((3917736515058548, 27), (27635937174332717, 15)); ((6894181052958382, 29), (31776041352374722, 15)); ((7819800382459628, 31), (3635840580165162, 14)); ((5350188813010104, 33), (4145172048487077, 14)); ((20105174645555705, 36), (47153106445156325, 15)); ((36057658645529064, 39), (5360857454469507, 14)); ((2451818845878714, 41), (6105853144721876, 14)); ((408830159368094, 44), (6996224003510503, 14)); ((5575345788327942, 50), (8149827923394889, 14))].
(** laguerre.rs:350-376 *)
Definition laguerre_25 : list (decimal * decimal) := [((1375260142293143, 16), (5670477545270528, 17)); ((2516452737649291, 16), (29901089858698887, 17)); ((2561760028097598, 16), (7359095554350165, 16)); ((18621549036244095, 17), (1369183116035193, 15)); ((10319984810752189, 17), (22013260537214667, 16)); ((4471416112993464, 17), (3235675803558037, 15)); ((15305232886395759, 18), (4476496615073835, 15)); ((4152414632877166, 18), (5929083762700448, 15)); ((8920990732597034, 19), (7599899309956751, 15)); ((15115601916424346, 20), (9496749220932434, 15)); ((2006553180193332, 20), (11629014911778754, 15)); ((2067774396431917, 21), (14007957976545068, 15)); ((16346520222911752, 23), (16647125597288785, 15)); ((976601506212471, 23), (19562898011469056, 15)); ((4327720794185004, 25), (2277524198683504, 14)); ((13896009633895479, 27), (26308772390968887, 15)); ((3138922792540003, 28), (30194291163316105, 15)); ((48026148226042224, 31), (3447109757192204, 14)); ((47358853648073665, 33), (3919060880393742, 14)); ((28142053798430746, 35), (4442234933616202, 14)); ((9164954395991565, 37), (5026457499383354, 14)); ((14189400094972862, 40), (5686496717394018, 14)); ((8273651944099231, 43), (6446667061595413, 14)); ((11688817115426908, 47), (7353423479210015, 14)); ((13158315000592032, 52), (8526015556249595, 14))].
(** laguerre.rs:377-404 *)
Definition laguerre_26 : list (decimal * decimal) := [((13261688414755088, 17), (54564482717908286, 18)); ((24486736801629908, 17), (2877079791061228, 16)); ((2533920221271477, 16), (7080160194786457, 16)); ((18864598364177176, 17), (13170813660438436, 16)); ((10791234164259454, 17), (211712094462847, 14)); ((48656565448924466, 18), (31110938788779334, 16)); ((17482137978490426, 18), (4302770876040371, 15)); ((5024983836831609, 18), (56968188261694666, 16)); ((11552691607496755, 19), (7298909963070183, 15)); ((21179115830037283, 20), (9115862897294216, 15)); ((3079252604171675, 20), (1115582495493751, 14)); ((352344009102456, 20), (13428509032459203, 15)); ((31415563253594235, 23), (15945503948143319, 15)); ((21554568144038427, 24), (18720686145460284, 15)); ((11204781176705473, 25), (21770774608541437, 15)); ((43290024051371465, 27), (2511609366231674, 14)); ((1213689159837291, 27), (28781646873450168, 15)); ((2396074223261364, 29), (32798673218409974, 15)); ((320521855983187, 30), (37206982629612824, 15)); ((27624941506080987, 34), (42058615924434534, 15)); ((14330643640727903, 36), (4742389935628153, 14)); ((4064844694113296, 38), (5340218519725329, 14)); ((5459513322799029, 41), (60142775690076896, 15)); ((27432209871356166, 45), (6789147970545129, 14)); ((3300230478152264, 48), (7711799906933285, 14)); ((3083752269585745, 53), (8902840275041098, 14))].
(** laguerre.rs:405-433 *)
Definition laguerre_27 : list (decimal * decimal) := [((12804572690683458, 17), (5257989820636434, 17)); ((23841884939415778, 17), (27722910598770467, 17)); ((25049340652299135, 17), (6821639113780065, 16)); ((19066206759352508, 17), (1268814180750757, 15)); ((11231094931185093, 17), (20391592782504855, 16)); ((52539385475131054, 18), (29958355818751636, 16)); ((1974092327574439, 17), (4142194482563246, 15)); ((5984113555700946, 18), (5482371716049069, 15)); ((14641503609227752, 19), (7021376024605551, 15)); ((28849800396584056, 20), (876520271685071, 14)); ((45576544403735015, 21), (10720979045996849, 15)); ((5735756119190818, 21), (12897150901909761, 15)); ((5702097017139314, 22), (15303724197068926, 15)); ((4430769157632029, 23), (1795258016401066, 14)); ((2656165316493792, 24), (20857892743471172, 15)); ((1208947524768711, 25), (24036690385983114, 15)); ((40962644275901, 25), (27509627633675777, 15)); ((10083497673164991, 29), (31302070792021055, 15)); ((17490517511153509, 31), (35445670666132855, 15)); ((20559670832614, 30), (399807226211267, 13)); ((15562957367237563, 35), (44959864785337984, 15)); ((7081265177901208, 37), (5045419615272772, 14)); ((17574720104285717, 40), (5656413090151835, 14)); ((20570430367976135, 43), (6344054668468883, 14)); ((894741911536934, 45), (713318480551601, 13)); ((9209310916917967, 50), (8071276384709606, 14)); ((7179742378294876, 55), (9280261352555704, 14))].
(** laguerre.rs:434-463 *)
Definition laguerre_28 : list (decimal * decimal) := [((12377884395428292, 17), (5073462484987386, 17)); ((23227927690088956, 17), (26748726864074074, 17)); ((2475118960364775, 16), (6581366283547919, 16)); ((19230711313239388, 17), (1223971808384909, 15)); ((11640536172113154, 17), (19667676124737774, 16)); ((5634590536447879, 17), (28888833260303217, 16)); ((2206636432625927, 17), (39933116592501134, 16)); ((702588763558407, 17), (5283736062843442, 15)); ((18206078926958945, 19), (6764603404243505, 15)); ((3833443038571334, 19), (8441216328271324, 15)); ((6535087080694586, 20), (1031985046299326, 14)); ((8971362053411014, 21), (12407903414460671, 15)); ((9847012256249517, 22), (1471408516413575, 14)); ((8564075852673259, 23), (17248663415608057, 15)); ((5836838763138484, 24), (20023783329951712, 15)); ((30756388778423815, 26), (23053890135030297, 15)); ((12325909527244575, 27), (2635629737440132, 14)); ((3682173674108522, 28), (2995196683359618, 14)); ((7998790575969163, 30), (3386660551658446, 14)); ((1224922500324125, 31), (3813225441019465, 14)); ((12711242950307056, 34), (4278967237077258, 14)); ((8488593367686924, 36), (4789207163362274, 14)); ((34024553794256913, 39), (535112979596643, 13)); ((7420156588867842, 41), (5974879608464124, 14)); ((7600413205801684, 44), (6675697728390647, 14)); ((28739103179403316, 48), (7478677815233917, 14)); ((25418229038893288, 52), (8431783710722705, 14)); ((16613758780291924, 57), (9658242062752731, 14))].
(** laguerre.rs:464-494 *)
Definition laguerre_29 : list (decimal * decimal) := [((11978686722480197, 17), (49014489994713764, 18)); ((22642938894472694, 17), (2584072979187784, 16)); ((2444735653556698, 16), (6357472158006806, 16)); ((1936202644976424, 16), (11822010556248432, 16)); ((12020699960179668, 17), (18993664980026832, 16)); ((6006260605182236, 17), (2789363538356292, 15)); ((24444040022708252, 18), (38548761581952915, 16)); ((8145624870286014, 18), (5099200088698599, 15)); ((2225899096067021, 18), (6526302885192904, 15)); ((4982863213445163, 19), (8140899733223032, 15)); ((9111348999272648, 20), (9948548893634884, 15)); ((13547034631790815, 21), (11955771944042638, 15)); ((16278500050223739, 22), (14170205843320575, 15)); ((15687206990177564, 23), (16600796552315668, 15)); ((12009533101199034, 24), (19258047913130728, 15)); ((7220528067633325, 25), (2215434543487159, 14)); ((3362401315847858, 26), (25304383763050154, 15)); ((11925479056622084, 28), (28725741025266423, 15)); ((3156204723862708, 29), (32439666742324384, 15)); ((6078331294228565, 31), (3647218971363948, 14)); ((8254298347471583, 33), (40855722336729144, 15)); ((7594039930710283, 35), (4563146770127781, 14)); ((4492421504930552, 37), (5085319151599018, 14)); ((15926368145878875, 40), (5659346289666191, 14)); ((3064007640463193, 42), (6295472850114927, 14)); ((275726695359824, 44), (7009089459642418, 14)); ((9099251850437394, 49), (7825537041941044, 14)); ((6943730710008354, 53), (8793259364298613, 14)); ((38222471284652376, 59), (10036749160276659, 14))].
(** laguerre.rs:495-526 *)
Definition laguerre_30 : list (decimal * decimal) := [((11604408602043889, 17), (4740718054080526, 17)); ((22085112475067714, 17), (2499239167531594, 16)); ((24139982758785372, 17), (6148334543927684, 16)); ((19463676844641709, 17), (11431958256661015, 16)); ((12372841596687649, 17), (18364545546225723, 16)); ((6367878036898661, 17), (2696521874557216, 15)); ((26860475273379727, 18), (37258145077795093, 16)); ((9338070881603926, 18), (4927293765849882, 15)); ((26806968913368197, 19), (6304515590965074, 15)); ((6351291219408556, 19), (786169329337026, 14)); ((123907459906883, 18), (9603775985479263, 15)); ((1982878843895233, 20), (1153654659795614, 14)); ((25893509291313925, 22), (13666744693064235, 15)); ((2740942840536013, 22), (16002221188981068, 15)); ((23328311650257382, 24), (1855213484014315, 14)); ((1580745574778328, 24), (21327204321783128, 15)); ((8427479123056716, 26), (24340035764532693, 15)); ((34851612349078554, 28), (2760555479678096, 14)); ((10990180597534515, 29), (31141586701111237, 15)); ((258831266495908, 29), (3496965200824907, 14)); ((4437838059840029, 32), (3911608494906789, 14)); ((5365918308212045, 34), (4361365290848483, 14)); ((43939468922916045, 37), (485039861638042, 13)); ((23114097943885432, 39), (53841385406507506, 15)); ((7274588498292248, 41), (596991218592355, 13)); ((12391497014482679, 44), (6618061779443849, 14)); ((9832375083105887, 47), (7344123859555988, 14)); ((2842323553402701, 50), (8173681050672768, 14)); ((18786080317495154, 55), (9155646652253684, 14)); ((8745980440465012, 60), (10415752443105889, 14))].
(** laguerre.rs:528-560 *)
Definition laguerre : list (list (decimal * decimal)) := [[]; laguerre_1; laguerre_2; laguerre_3; laguerre_4; laguerre_5; laguerre_6; laguerre_7; laguerre_8; laguerre_9; laguerre_10; laguerre_11; laguerre_12; laguerre_13; laguerre_14; laguerre_15; laguerre_16; laguerre_17; laguerre_18; laguerre_19; laguerre_20; laguerre_21; laguerre_22; laguerre_23; laguerre_24; laguerre_25; laguerre_26; laguerre_27; laguerre_28; laguerre_29; laguerre_30].

