(** Coefficient tables of /repo/src/zm_sf_bessel.c.  An entry [(m,e)] is the decimal number [m / 10^e] as it is
    written in the source (the compiler stores the nearest double, which is not modelled). *)
From Verif Require Import Prelude.

Definition tab := list (Z * Z).
Open Scope Z_scope.

(** table [a] of zBesselJ0, src/zm_sf_bessel.c:32-37 *)
Definition J0a : tab := [
  (-23655394,19); (470889868,18); (-678167892231,19);
  (67816840038636,19); (-4340277777716935,19); (156249999999992397,19);
  (-2499999999999999638,19); (9999999999999999997,19)
].
(** table [b] of zBesselJ0, src/zm_sf_bessel.c:38-74 *)
Definition J0b : tab := [
  (626681117,19); (-22270614428,19); (662981656302,19);
  (-16268486502196,19); (321978384111685,19); (-500523773331583,18);
  (59060313537449816,19); (-505265323740109701,19); (2936432097610503985,19);
  (-10482565081091638637,19); (19181123286040428113,19); (-113191994752217001,17);
  (-1965480952704682,16); (457457332,19); (-15814772025,19);
  (455487446311,19); (-10735201286233,19); (202015179970014,19);
  (-2942392368203808,19); (31801987726150648,19); (-239875209742846362,19);
  (1141447698973777641,19); (-2766726722823530233,19); (1088620480970941648,19);
  (5136514645381999197,19); (-2100594022073706033,19); (331366618,19);
  (-11119090229,19); (308823040363,19); (-6956602653104,19);
  (123499947481762,19); (-166295194539618,18); (16048663165678412,19);
  (-100785479932760966,19); (328996815223415274,19); (-56168761733860688,19);
  (-2341096400274429386,19); (2551729256776404262,19); (2288438186148935667,19);
  (238007203,19); (-7731046439,19); (206237001152,19);
  (-4412291442285,19); (73107766249655,19); (-891749801028666,19);
  (734165451384135,18); (-33303085445352071,19); (15425853045205717,19);
  (521100583113136379,19); (-1334447768979217815,19); (-1401330292364750968,19);
  (2685616168804818919,19); (16935595,18); (-5308092192,19);
  (135323005576,19); (-2726650587978,19); (4151324014176,18);
  (-443353052220157,19); (2815740758993879,19); (-4393235121629007,19);
  (-67573531105799347,19); (369141914660130814,19); (81673361942996237,19);
  (-257338128589888186,18); (459580257102978932,19)
].
(** table [c] of zBesselJ0, src/zm_sf_bessel.c:75-111 *)
Definition J0c : tab := [
  (-3009451757,20); (-14958003844,20); (506854544776,20);
  (1863564222012,20); (-60304249068078,20); (-147686259937403,20);
  (4714331342682714,20); (6286305481740818,20); (-214137170594124344,20);
  (-89157336676889788,20); (4508258728666024989,20); (-490362805828762224,20);
  (-27312196367405374426,20); (4193925184293450356,20); (-71245356,19);
  (-41170814825,20); (138012624364,20); (5704447670683,20);
  (-19026363528842,20); (-533925032409729,20); (1736064885538091,20);
  (30692619152608375,20); (-92598938200644367,20); (-917934265960017663,20);
  (2287952522866389076,20); (10545197546252853195,20); (-16126443075752985095,20);
  (-19392874768742235538,20); (2128344556,20); (-31053910272,20);
  (-334979293158,20); (450723289505,19); (36437959146427,20);
  (-446421436266678,20); (-2523429344576552,20); (27519882931758163,20);
  (97185076358599358,20); (-898326746345390692,20); (-1665959196063987584,20);
  (11456933464891967814,20); (7885001422733148815,20); (-23664819446234712621,20);
  (3035295055,20); (5486066835,20); (-501026824811,20);
  (-50124684786,19); (58012340163034,20); (16788922416169,20);
  (-4373270270147275,20); (1183898532719802,20); (189863342862291449,20);
  (-11375924956163613,19); (-3846797195329871681,20); (2389746880951420335,20);
  (22837862066532347461,20); (-6765394811166522844,20); (1279875977,20);
  (35925958103,20); (-228037105967,20); (-4852770517176,20);
  (28696428000189,20); (440131125178642,20); (-2366617753349105,20);
  (-24412456252884129,20); (113028178539430542,20); (70847051391978908,19);
  (-2526914792327618386,20); (-8006137953480093426,20); (16548380461475971846,20);
  (14688405470042110229,20)
].
(** table [d] of zBesselJ0, src/zm_sf_bessel.c:112-141 *)
Definition J0d : tab := [
  (1059601355592185731,32); (-271150591218550377,30); (86514809056201638,28);
  (-46264028554286627,26); (50815403835647104,24); (-176722552048141208,22);
  (16286750396763997378,20); (2949651820598278873,31); (-8818215611676125741,30);
  (3571119876162253451,28); (-263192412099371706,25); (4709502795656698909,24);
  (-5208333333333283282,21); (718344107717531977,32); (-251623725588410308,30);
  (86017784918920604,28); (-46256876614290359,26); (50815343220437937,24);
  (-17672255176494197,21); (16286750396763433767,20); (22327570859680094777,32);
  (-8464594853517051292,30); (3563766464349055183,28); (-2631843986737892965,26);
  (470950234228865941,23); (-52083333332278466225,22); (515413392842889366,32);
  (-227740238380640162,30); (84827767197609014,28); (-46224753682737618,26);
  (50814848128929134,24); (-17672254763876748,21); (16286750396748926663,20);
  (17316195320192170887,32); (-7971122772293919646,30); (3544039469911895749,28);
  (-2631443902081701081,26); (4709498228695400603,24); (-5208333331514365361,21);
  (384653681453798517,32); (-204464520778789011,30); (83089298605177838,28);
  (-46155016158412096,26); (5081326369646665,23); (-176722528311426167,22);
  (1628675039665006593,19); (13797879972460878797,32); (-7448089381011684812,30);
  (351273379710695978,27); (-2630500895563592722,26); (4709483934775839193,24);
  (-52083333227940760113,22)
].
(** table [a] of zBesselJ1, src/zm_sf_bessel.c:165-170 *)
Definition J1a : tab := [
  (-14810349,20); (3363594618,20); (-565140051697,20);
  (67816840144764,20); (-5425347222188379,20); (260416666666662438,20);
  (-6249999999999999799,20); (49999999999999999998,20)
].
(** table [b] of zBesselJ1, src/zm_sf_bessel.c:171-207 *)
Definition J1b : tab := [
  (243721316,20); (-9400554763,20); (30605338998,19);
  (-8287270492518,20); (183020515991344,20); (-3219783841164382,20);
  (43795830161515318,20); (-442952351530868999,20); (3157908273375945955,20);
  (-14682160488052520107,20); (39309619054093640008,20); (-4795280821510107028,19);
  (1414899934402712514,19); (182119257,20); (-6862117678,20);
  (21732790836,19); (-569359291782,19); (120771046483277,20);
  (-2020151799736374,20); (25745933218048448,20); (-238514907946126334,20);
  (1499220060892984289,20); (-5707238494868888345,20); (10375225210588234727,20);
  (-2721551202427354117,20); (-6420643306727498985,20); (1352611196,21);
  (-49706947875,21); (1527944986332,21); (-38602878823401,21);
  (782618036237845,21); (-123499947484511,19); (145508295194426686,21);
  (-1203649737425854162,21); (6299092495799005109,21); (-16449840761170764763,21);
  (2106328565019748701,21); (5852741000686073465,20); (-31896615709705053191,21);
  (997982124,21); (-35702556073,21); (1062332772617,21);
  (-25779624221725,21); (496382962683556,21); (-7310776625173004,21);
  (78028107569541842,21); (-550624088538081113,21); (2081442840335570371,21);
  (-771292652260286633,21); (-19541271866742634199,21); (33361194224480445382,21);
  (17516628654559387164,21); (731050661,21); (-25404499912,21);
  (729360079088,21); (-16915375004937,21); (306748319652546,21);
  (-4151324014331739,21); (38793392054271497,21); (-211180556924525773,21);
  (274577195102593786,21); (3378676555289966782,21); (-13842821799754920148,21);
  (-2041834048574905921,21); (32167266073736023299,21)
].
(** table [c] of zBesselJ1, src/zm_sf_bessel.c:208-244 *)
Definition J1c : tab := [
  (-1185964494,20); (39110295657,20); (180385519493,20);
  (-5575391345723,20); (-18635897017174,20); (542738239401869,20);
  (1181490114244279,20); (-3300031939852107,19); (-37717832892725053,20);
  (1070685852970608288,20); (356629346707622489,20); (-13524776185998074716,20);
  (980725611657523952,20); (27312196367405374425,20); (-3029591097,20);
  (9259293559,20); (496321971223,20); (-1518137078639,20);
  (-57045127595547,20); (171237271302072,20); (4271400348035384,20);
  (-12152454198713258,20); (-184155714921474963,20); (462994691003219055,20);
  (3671737063840232452,20); (-6863857568599167175,20); (-21090395092505707655,20);
  (16126443075752985095,20); (-219760208,19); (-27659100729,20);
  (374295124827,20); (3684765777023,20); (-45072801091574,20);
  (-327941630669276,20); (35713715545163,18); (17664005411843533,20);
  (-165119297594774104,20); (-485925381792986774,20); (3593306985381680131,20);
  (4997877588191962563,20); (-22913866929783936544,20); (-7885001422733148814,20);
  (516292316,20); (-39445956763,20); (-66220021263,20);
  (5511286218639,20); (501257940078,19); (-522111059203425,20);
  (-134311394455105,20); (30612891890766805,20); (-7103391195326182,20);
  (-949316714311443491,20); (455036998246516948,20); (11540391585989614784,20);
  (-4779493761902840455,20); (-2283786206653234746,19); (2697817493,20);
  (-16633326949,20); (-43313486035,19); (2508404686362,20);
  (48528284780984,20); (-258267851112118,20); (-3521049080466759,20);
  (16566324273339952,20); (146474737522491617,20); (-565140892697147306,20);
  (-28338820556793004,18); (7580744376982855057,20); (16012275906960187978,20);
  (-16548380461475971845,20)
].
(** table [d] of zBesselJ1, src/zm_sf_bessel.c:245-274 *)
Definition J1d : tab := [
  (-1272346002224188092,32); (3370464692346669075,31); (-1144940314335484869,29);
  (6863141561083429745,28); (-9491933932960924159,26); (5301676561445687562,23);
  (162867503967639974,18); (-3652982212914147794,31); (1151126750560028914,29);
  (-5165585095674343486,28); (4657991250060549892,26); (-1186794704692706504,23);
  (1562499999999994026,20); (-8713069680903981555,33); (3140780373478474935,31);
  (-1139089186076256597,29); (6862299023338785566,28); (-9491926788274594674,26);
  (5301676558106268323,23); (162867503967646622,18); (-2792555727162752006,31);
  (1108650207651756807,29); (-5156745588549830981,28); (4657894859077370979,26);
  (-1186794650130550256,23); (1562499999987299901,20); (-6304859171204770696,33);
  (2857249044208791652,31); (-1124956921556753188,29); (6858482894906716661,28);
  (-949186795351689846,25); (5301676509057781574,23); (1628675039678191167,19);
  (-2185193490132496053,31); (1048820673697426074,29); (-5132819367467680132,28);
  (465740943737299422,25); (-1186794150862988921,23); (1562499999779270706,20);
  (-474041720979200985,32); (2578715253644144182,31); (-1104148898414138857,29);
  (6850134201626289183,28); (-949167823417491964,25); (5301676277588728159,23);
  (1628675039690033136,19); (-175512205749384229,30); (9848723331445182397,30);
  (-5094535425482245697,28); (4656255982268609304,26); (-1186792402114394891,23);
  (1562499998712198636,20)
].
(** table [a] of zBesselY0, src/zm_sf_bessel.c:341-350 *)
Definition Y0a : tab := [
  (-151249795,20); (29979612902,20); (-4317352912436,20);
  (431735413787068,20); (-2763106650893309,19); (99471839432433894,19);
  (-15915494309189533339,20); (63661977236758134306,20); (409490035,20);
  (-76925095943,20); (10358472550303,20); (-949500519343105,20);
  (53860266685948738,20); (-1607396802593822992,20); (17760601686906713536,20);
  (-7380429510868722524,20)
].
(** table [b] of zBesselY0, src/zm_sf_bessel.c:351-408 *)
Definition Y0b : tab := [
  (-2958527319,20); (-4799424787,20); (70761365903,20);
  (786916310954,20); (440632174633,19); (1047420705431,19);
  (-70359581447993,20); (-1068225180236166,20); (-7636033201484949,20);
  (-34318294473105478,20); (-50019381740765567,20); (898034680285547482,20);
  (14783488851798565262,20); (1218096458136948754,20); (-3790394288,20);
  (-83012324083,20); (-416344143065,20); (-159750317942,20);
  (11897479804282,20); (89462034665663,20); (27927785508031,19);
  (-710267818373816,20); (-14158631248747538,20); (-89512296835766028,20);
  (-286419212921734238,20); (448696141199596815,20); (16247276853497028694,20);
  (16806523426268420517,20); (49508820408,20); (240256475451,20);
  (-34128702476,19); (-7926555593644,20); (-27510687602104,20);
  (82850014912691,20); (1202838962100801,20); (4446440998573947,20);
  (-6345799532264893,20); (-153636349657759957,20); (-784582749467635199,20);
  (-1091113270659651752,20); (15855078058220179592,20); (33112075987570150227,20);
  (-121381163034,20); (-185252445637,20); (2782181715752,20);
  (9983716245339,20); (-51382328105461,20); (-413045112612025,20);
  (69219807212556,20); (11346881914173059,20); (4485714262231131,19);
  (-75862241142011713,20); (-1330170710405210993,20); (-4337207915110066583,20);
  (10708263075506099964,20); (46937172516119821029,20); (123954313286,20);
  (-13150647347,19); (-3208158247443,20); (6936208476862,20);
  (96326321605564,20); (-186813677726279,20); (-3296596487362508,20);
  (-1027532398838717,20); (88296805857821394,20); (288502916411875494,20);
  (-981551522729451135,20); (-8175499367255420548,20); (-197090243242566078,19);
  (51958016003260732459,20); (-50293922567,20); (25905819115,19);
  (380069015768,20); (-1257928760583,19); (29666593806065,20);
  (532199410651341,20); (-1466013674557952,20); (-21196179800800308,20);
  (1488907515797525,19); (598670133725335804,20); (917434640154761191,20);
  (-8592436550224288681,20); (-1970089491453584694,19); (41202451505149651586,20);
  (2689416111,20); (-60225798842,20); (716632287642,20);
  (-3038834206093,20); (-49829955736697,20); (36467866107985,19);
  (2599276311771812,20); (-16374249229498868,20); (-112385259950125883,20);
  (342431039748960465,20); (3016663018029814938,20); (-2432512430353342927,20);
  (-31797371916576712163,20); (14418001571733803493,20); (19463221,19);
  (-13451327719,20); (336581427068,20); (2163920016772,20);
  (-50868502638387,20); (-126562372408989,20); (3554054033687039,20);
  (7490048474688881,20); (-14238004200886133,19); (-355314274445060456,20);
  (3042001885994619102,20); (7365497405664882878,20); (-26882214651298246524,20);
  (-16578636480856581212,20)
].
(** table [c] of zBesselY0, src/zm_sf_bessel.c:409-473 *)
Definition Y0c : tab := [
  (14133441141,20); (-116239182574,20); (560813675548,20);
  (4361111919906,20); (-19980743680592,20); (-623828267379045,20);
  (2659779111113435,20); (34429768949740887,20); (-128058451746064875,20);
  (-1165906901727504569,20); (3800023545011044967,20); (13079665132249175616,20);
  (-30099732306965462304,20); (-19470500862950453349,20); (2985070388,20);
  (-43935370028,20); (-270094988368,20); (527013936718,19);
  (35596645009533,20); (-55939305510166,19); (-2415386269153308,20);
  (34989509210648774,20); (98204687587121096,20); (-1241793885175385487,20);
  (-139851984097438996,19); (16758045653582919005,20); (2375823895638961834,20);
  (-33948059288191103829,20); (3440543098,20); (-1492311224,20);
  (-550307983816,20); (288861169685,20); (65975576340131,20);
  (-64253433004282,20); (-5095354686815779,20); (635545499385876,19);
  (231750171436134067,20); (-344140664586595266,20); (-4796153689875432703,20);
  (6553727330877767204,20); (27409127395927545297,20); (-17324243491898233567,20);
  (1869953108,20); (35678205287,20); (-323369443017,20);
  (-4932837601739,20); (40636932259569,20); (455294558480472,20);
  (-3376596464782138,20); (-25758322585307069,20); (167416927479443727,20);
  (735300543429220468,20); (-3904554680817849396,20); (-7593187710651205994,20);
  (25912851048611625179,20); (11731328614820863082,20); (-1168499781,20);
  (4049157062,19); (176042185153,20); (-5796810963324,20);
  (-17664264701199,20); (565232278687159,20); (1060939366068237,20);
  (-34382320897779425,20); (-28786871040915476,20); (110369660250104046,19);
  (105742483935856071,20); (-13664188676516064192,20); (2616867939853747003,20);
  (27020510536578747599,20); (-309714065,19); (10275535029,20);
  (507546062007,20); (-1697584561546,20); (-58222618994516,20);
  (192483899143098,20); (43388818054202,18); (-13714074807064326,20);
  (-184722933402281351,20); (51736071998208299,19); (3611657815299529568,20);
  (-7491163418624572802,20); (-20317989938720766824,20); (17121062620272384486,20);
  (-2289344046,20); (-27762757821,20); (39133021423,19);
  (3673304032817,20); (-47258696909223,20); (-323109113206792,20);
  (3749284946160478,20); (17039067180362504,20); (-172637004639815403,20);
  (-454152531086626043,20); (3717220530377418124,20); (4489395902785574534,20);
  (-23370422835726857839,20); (-6753037249787639679,20); (473299038,20);
  (-40489249115,20); (-56747261733,20); (5656135976496,20);
  (3564150059329,20); (-534821220288168,20); (7581385461348,20);
  (31190256463318867,20); (-14634564376714538,20); (-95821355155047985,19);
  (624681472076521329,20); (11513529702572439703,20); (-5794254714300082167,20);
  (-22523211169118786537,20); (2732444065,20); (-17726475495,20);
  (-437562701999,20); (268153688556,19); (48799100503315,20);
  (-276490187540644,20); (-3513357925824063,20); (17693155138571443,20);
  (144533233498513085,20); (-599106092630544975,20); (-2759437856689911694,20);
  (7945362316083459396,20); (15383825653750118008,20); (-17121430684466928734,20)
].
(** table [d] of zBesselY0, src/zm_sf_bessel.c:474-503 *)
Definition Y0d : tab := [
  (1059601355592185731,32); (-271150591218550377,30); (86514809056201638,28);
  (-46264028554286627,26); (50815403835647104,24); (-176722552048141208,22);
  (16286750396763997378,20); (2949651820598278873,31); (-8818215611676125741,30);
  (3571119876162253451,28); (-263192412099371706,25); (4709502795656698909,24);
  (-5208333333333283282,21); (718344107717531977,32); (-251623725588410308,30);
  (86017784918920604,28); (-46256876614290359,26); (50815343220437937,24);
  (-17672255176494197,21); (16286750396763433767,20); (22327570859680094777,32);
  (-8464594853517051292,30); (3563766464349055183,28); (-2631843986737892965,26);
  (470950234228865941,23); (-52083333332278466225,22); (515413392842889366,32);
  (-227740238380640162,30); (84827767197609014,28); (-46224753682737618,26);
  (50814848128929134,24); (-17672254763876748,21); (16286750396748926663,20);
  (17316195320192170887,32); (-7971122772293919646,30); (3544039469911895749,28);
  (-2631443902081701081,26); (4709498228695400603,24); (-5208333331514365361,21);
  (384653681453798517,32); (-204464520778789011,30); (83089298605177838,28);
  (-46155016158412096,26); (5081326369646665,23); (-176722528311426167,22);
  (1628675039665006593,19); (13797879972460878797,32); (-7448089381011684812,30);
  (351273379710695978,27); (-2630500895563592722,26); (4709483934775839193,24);
  (-52083333227940760113,22)
].
(** table [a] of zBesselY1, src/zm_sf_bessel.c:529-538 *)
Definition Y1a : tab := [
  (-946499,19); (2141432796,20); (-35977944347,19);
  (43173541397185,20); (-3453883313621946,20); (165786399054057257,20);
  (-3978873577297383381,20); (31830988618379067154,20); (-5571931463,20);
  (893098810365,20); (-99267351748541,20); (7164268731546281,20);
  (-295530533604595764,20); (5434868816050718549,20); (-1960570906462388432,19);
  (-63661977236758134367,20)
].
(** table [b] of zBesselY1, src/zm_sf_bessel.c:539-596 *)
Definition Y1b : tab := [
  (2553685555,20); (7384080449,20); (-29605446927,20);
  (-52081739106,19); (-3676554001376,20); (-1532652533627,19);
  (-13967947147386,20); (388730181348638,20); (4052240780599446,20);
  (25133005806772436,20); (109380629039004777,20); (298157276348996763,20);
  (47188983238582062,20); (-19643830264444486066,20); (1056916126,20);
  (62160122556,20); (385741197273,20); (7491469406,18);
  (-6306874425799,20); (-6869833657799,19); (-329785491054157,20);
  (-557893716372629,20); (4634569030169549,20); (49086790937752985,20);
  (256488729380268318,20); (822571374211646414,20); (1094512145046992425,20);
  (-19159562910398869317,20); (-40211480479,20); (-229721816531,20);
  (62931855684,20); (6509879184236,20); (31589903600713,20);
  (-3093448289001,20); (-845532004628483,20); (-4930719004112743,20);
  (-9865914153735679,20); (47059803263198826,20); (472271367216891688,20);
  (1915518502418162917,20); (372239136138415874,19); (-1693323078896687811,19);
  (110728466147,20); (205608441891,20); (-2536199750468,20);
  (-11751665325851,20); (3404534385077,19); (436083390507752,20);
  (834725302600388,20); (-7154971448642437,20); (-51956165332380432,20);
  (-100811886858456098,20); (436854257164588225,20); (3425644258611852849,20);
  (907397117201493499,19); (-10791597118914788657,20); (-117749768422,20);
  (168403859797,20); (3471030171126,20); (-6227816248757,20);
  (-118405395385178,20); (14478514453927,20); (3630744090017806,20);
  (10481065165516454,20); (-52483993430622472,20); (-407014291708523893,20);
  (-574311514714191566,20); (3534768318503458091,20); (16539360869993020163,20);
  (1986240425870529979,20); (4008050552,19); (-336044652853,20);
  (-92387130705,20); (17840823064933,20); (-22643988836534,20);
  (-808896250262948,20); (-169403516892975,20); (26617475073041589,20);
  (72562705080786576,20); (-399208199997748377,20); (-2399816920965700841,20);
  (-92557474455754244,19); (2008281402282066699,19); (21040564991987672576,20);
  (6692975871,20); (1672202705,19); (-1433097981251,20);
  (5455077276306,20); (104954046999028,20); (-339572219821681,20);
  (-5541577161092338,20); (4344113487321887,20); (184798594297387512,20);
  (30104150846815045,19); (-2789739141907399514,20); (-9421628519129373841,20);
  (9950212445529771576,20); (3749697583874640408,19); (4528583204,20);
  (66861092459,20); (-92464816857,19); (-8002058622489,20);
  (87578676979688,20); (628456150216647,20); (-4276239654834506,20);
  (-34630842915911896,20); (89431202169021474,20); (1086380107342193819,20);
  (145563493724746238,20); (-14193383817937981478,20); (-15148562296986494725,20);
  (35720232689066512346,20)
].
(** table [c] of zBesselY1, src/zm_sf_bessel.c:597-661 *)
Definition Y1c : tab := [
  (3201620498,19); (-177431944127,20); (1367520951871,20);
  (-6171755212447,20); (-43602779932091,20); (179827173442894,20);
  (4990624965075363,20); (-18618453816525107,20); (-206578613620093339,20);
  (640292258731756063,20); (4663627606907821596,20); (-11400070635033154332,20);
  (-26159330264498333979,20); (30099732306965462346,20); (-59774708,20);
  (-38827648808,20); (527269271362,20); (2971059814012,20);
  (-52701406514027,20); (-320369808906187,20); (4475144442564492,20);
  (16907703884518866,20); (-209937055264007564,20); (-491023437935628693,20);
  (496717554070154514,19); (4195559522923170315,20); (-33516091307165838036,20);
  (-2375823895638961835,20); (283380103,20); (-44715450235,20);
  (1769519961,19); (605337984007,19); (-2888550814408,20);
  (-593780185020349,20); (514027455732102,20); (35667482807472357,20);
  (-3813272996260773,19); (-1158750857180657934,20); (1376562658346365929,20);
  (14388461069626297876,20); (-1310745466175553429,19); (-27409127395927545296,20);
  (2683697058,20); (-24302161327,20); (-430151236236,20);
  (3557058903199,20); (49328952592926,20); (-365732389065382,20);
  (-3642356546467712,20); (23636175253326716,20); (154549935517002108,20);
  (-837084637397210913,20); (-2941202173717025197,20); (11713664042453548043,20);
  (15186375421302413107,20); (-25912851048611625179,20); (2914434604,20);
  (15185121893,20); (-488084673389,20); (-1936460341189,20);
  (57968735781303,20); (158978381365925,20); (-4521858314881102,20);
  (-7426575562367423,20); (206293925392279862,20); (143934355204571641,20);
  (-4414786410004317489,20); (-317227451807568106,20); (273283773530321296,18);
  (-2616867939853747003,20); (644550655,20); (40249587279,20);
  (-123789833341,20); (-558299757877,19); (16975984093144,20);
  (524003568623094,20); (-1539871212028104,20); (-30372172637669852,20);
  (82284448843625174,20); (923614667011392611,20); (-2069442879928366384,20);
  (-10834973445898588438,20); (14982326837249145873,20); (20317989938720766823,20);
  (-2115691215,20); (29752035314,20); (334739862269,20);
  (-4304625868398,20); (-36733494871207,20); (425328270524107,20);
  (2584872967637478,20); (-26244994622929809,20); (-102234403086242668,20);
  (863185023199066935,20); (1816610124346617164,20); (-11151661591132254182,20);
  (-897879180557114995,19); (23370422835726857838,20); (-2957977086,20);
  (-6150420279,20); (488089472193,20); (624218182859,20);
  (-56561995267846,20); (-32077350100271,20); (427856984896483,19);
  (-53069698280036,20); (-18714153878560023,19); (73172821883575326,20);
  (3832854206202077374,20); (-1874044416229564036,20); (-2302705940514488064,19);
  (5794254714300082167,20); (-1203179184,20); (-35509887475,20);
  (213620090322,20); (4813181550803,20); (-26815627351126,20);
  (-439191902440609,20); (2211921535574542,20); (245935054805247,18);
  (-106158930833741898,20); (-722666167492552731,20); (2396424370522244155,20);
  (8278313570069734843,20); (-15890724632166919294,20); (-15383825653750118007,20)
].
(** table [d] of zBesselY1, src/zm_sf_bessel.c:662-691 *)
Definition Y1d : tab := [
  (-1272346002224188092,32); (3370464692346669075,31); (-1144940314335484869,29);
  (6863141561083429745,28); (-9491933932960924159,26); (5301676561445687562,23);
  (162867503967639974,18); (-3652982212914147794,31); (1151126750560028914,29);
  (-5165585095674343486,28); (4657991250060549892,26); (-1186794704692706504,23);
  (1562499999999994026,20); (-8713069680903981555,33); (3140780373478474935,31);
  (-1139089186076256597,29); (6862299023338785566,28); (-9491926788274594674,26);
  (5301676558106268323,23); (162867503967646622,18); (-2792555727162752006,31);
  (1108650207651756807,29); (-5156745588549830981,28); (4657894859077370979,26);
  (-1186794650130550256,23); (1562499999987299901,20); (-6304859171204770696,33);
  (2857249044208791652,31); (-1124956921556753188,29); (6858482894906716661,28);
  (-949186795351689846,25); (5301676509057781574,23); (1628675039678191167,19);
  (-2185193490132496053,31); (1048820673697426074,29); (-5132819367467680132,28);
  (465740943737299422,25); (-1186794150862988921,23); (1562499999779270706,20);
  (-474041720979200985,32); (2578715253644144182,31); (-1104148898414138857,29);
  (6850134201626289183,28); (-949167823417491964,25); (5301676277588728159,23);
  (1628675039690033136,19); (-175512205749384229,30); (9848723331445182397,30);
  (-5094535425482245697,28); (4656255982268609304,26); (-1186792402114394891,23);
  (1562499998712198636,20)
].
(** table [a] of zBesselI0, src/zm_sf_bessel.c:740-776 *)
Definition I0a : tab := [
  (85246820682016865877,30); (25966600546497407288,28); (79689994568640180274,27);
  (19906710409667748239,25); (40312469446528002532,24); (64499871606224265421,23);
  (79012345761930579108,22); (71111111109207045212,21); (444444444444724909,18);
  (17777777777777532045,19); (40000000000000011182,19); (399999999999999998,17);
  (10000000000000000001,19); (11520919130377195927,29); (22287613013610985225,28);
  (81903951930694585113,27); (19821560631611544984,25); (40335461940910133184,24);
  (64495330974432203401,23); (79013012611467520626,22); (71111038160875566622,21);
  (44444450319062699316,20); (17777777439146450067,19); (40000000132337935071,19);
  (39999999968569015366,19); (10000000003426703174,19); (15476870780515238488,29);
  (12685004214732975355,28); (92776861851114223267,27); (19063070109379044378,25);
  (40698004389917945832,24); (64370447244298070713,23); (79044749458444976958,22);
  (71105052411749363882,21); (44445280640924755082,20); (17777694934432109713,19);
  (40000055808824003386,19); (39999977081165740932,19); (10000004333949319118,19);
  (20675200625006793075,29); (-61689554705125681442,29); (12436765915401571654,26);
  (15830429403520613423,25); (42947227560776583326,24); (63249861665073441312,23);
  (79454472840953930811,22); (70994327785661860575,21); (44467219586283000332,20);
  (17774588182255374745,19); (40003038986252717972,19); (39998233869142057195,19);
  (10000472932961288324,19); (27475684794982708655,29); (-38991472076521332023,28);
  (19730170483976049388,26); (59651531561967674521,26); (51992971474748995357,24);
  (57327338675433770752,23); (82293143836530412024,22); (69990934858728039037,21);
  (44726764292723985087,20); (17726685170014087784,19); (40062907863712704432,19);
  (39952750700487845355,19); (10016354346654179322,19)
].
(** table [b] of zBesselI0, src/zm_sf_bessel.c:777-813 *)
Definition I0b : tab := [
  (67852367144945531383,27); (46266061382821826854,26); (69703135812354071774,25);
  (76637663462953234134,24); (79113515222612691636,23); (73401204731103808981,22);
  (60677114958668837046,21); (43994941411651569622,20); (27420017097661750609,19);
  (14289661921740860534,18); (59820609640320710779,18); (18878998681199150629,17);
  (3998731367825601118,16); (42756411572180478514,17); (18042097874891098754,26);
  (12277164312044637357,25); (18484393221474274861,24); (20293995900091309208,23);
  (20918539850246207459,22); (19375315654033949297,21); (15985869016767185908,20);
  (11565260527420641724,19); (71896341224206072113,19); (37354773811947484532,18);
  (15580993164266268457,17); (4895211371158540918,16); (10309147225169564806,16);
  (10935883545113746958,16); (48017305613187493564,26); (3261317843912380074,24);
  (49073137508166159639,24); (53806506676487583755,23); (55387918291051866561,22);
  (51223717488786549025,21); (42190298621367914765,20); (30463625987357355872,19);
  (18895299447327733204,18); (97915189029455461554,18); (40713940115493494659,17);
  (12743088990480582632,16); (26709883037012547506,16); (28157166284662544712,16);
  (12789926338424623394,25); (86718263067604918916,25); (13041508821299929489,23);
  (1428224737372747892,21); (14684070635768789378,21); (13561403190404185755,20);
  (11152592585977393953,19); (80387088559465389038,19); (49761318895895479206,18);
  (2572684232313529138,16); (10668543146269566231,16); (33283874581009636362,16);
  (69488586598121634874,16); (72884893398212481055,16); (3409350368197032893,24);
  (23079025203103376076,24); (34691373283901830239,23); (3794994977222908545,21);
  (38974209677945602145,21); (3594948380414878371,19); (29522878893539528226,19);
  (21246564609514287056,18); (13128727387146173141,17); (67738107093296675421,17);
  (28023724744545046518,16); (87185731420798254081,16); (18141348781638832286,15);
  (18948925349296308859,15)
].
(** table [c] of zBesselI0, src/zm_sf_bessel.c:814-840 *)
Definition I0c : tab := [
  (25568678676452702768,34); (30393953792305924324,33); (63343751991094840009,32);
  (15041298011833009649,30); (44569436918556541414,29); (1746393051427167951,26);
  (10059224011079852317,25); (10729838945088577089,23); (5150322693642527738,20);
  (52527963991711562216,34); (7202118481421005641,33); (72561421229904797156,32);
  (1482312146673104251,29); (44602670450376245434,29); (17463600061788679671,27);
  (1005922609132234756,24); (10729838937545111487,23); (51503226936437300716,21);
  (13365917359358069908,33); (-12932643065888544835,32); (17450199447905602915,31);
  (10419051209056979788,30); (458047881980598326,27); (17442405450073548966,27);
  (10059461453281292278,25); (10729837434500161228,23); (51503226940658446941,21);
  (53771611477352308649,33); (-11396193006413731702,31); (12858641335221653409,30);
  (-59802086004570057703,30); (73666894305929510222,29); (16731837150730356448,27);
  (10070831435812128922,25); (10729733111203704813,23); (51503227360726294675,21);
  (37819492084858931093,33); (-48600496888588034879,32); (16898350504817224909,31);
  (45884624327524255865,30); (12521615963377513729,29); (18959658437754727957,27);
  (10020716710561353622,25); (1073037119856927559,22); (5150322383300230775,20)
].
(** table [a] of zBesselI1, src/zm_sf_bessel.c:859-890 *)
Definition I1a : tab := [
  (12787464404046789181,29); (35705860060088241077,28); (9961153761934733504,26);
  (22395070088633043177,25); (40312466928887462346,24); (56437387840203722356,23);
  (59259259312934746096,22); (4444444444349900887,20); (22222222222232042719,20);
  (66666666666666139867,20); (10000000000000001106,19); (49999999999999999962,20);
  (17281952384448634449,29); (3064720455997639013,27); (10237662138842827028,26);
  (22299494417341498163,25); (40335364374929326943,24); (56433440269141349899,23);
  (59259754885893798654,22); (4444439941088039787,20); (2222222511283502673,19);
  (66666665422146063244,20); (10000000032274936821,19); (49999999961866867205,20);
  (23216048939948030996,29); (17443372702334489579,28); (11596478963485415499,26);
  (21446755518623035147,25); (40697440347437076195,24); (56324394900433192204,23);
  (59283484996093060678,22); (44440673899150997921,21); (2222263801685265786,19);
  (66666358151576732094,20); (10000013834029985337,19); (49999971643129650249,20);
  (31013758938255172562,29); (-84813676145611694984,29); (15544980187411802596,26);
  (17811109378708045726,25); (42945322199060856985,24); (55344850176852353639,23);
  (59590327716950614802,22); (44371611097707060659,21); (22233578241986401111,20);
  (6665474730046331531,19); (10000756505206705927,19); (49997803664415994554,20);
  (41214758313965020365,29); (-5361331773534742944,27); (24661360807517345161,26);
  (67144593918926723203,26); (51988027944945587571,24); (50165568586065803067,23);
  (61717530047005289953,22); (43745229577317251404,21); (22363147971477747996,20);
  (6647546913111766024,19); (10015686689447547657,19); (49941120439785391891,20)
].
(** table [b] of zBesselI1, src/zm_sf_bessel.c:891-927 *)
Definition I1b : tab := [
  (66324787943143095845,27); (45125928898466638619,26); (67937793134877246623,25);
  (74580507871505926302,24); (76866382927334005919,23); (71185174803491859307,22);
  (58721838073486424416,21); (42473949281714196041,20); (26396965606282079123,19);
  (13710008536637016903,18); (57158647688180932003,18); (17946182892089389037,17);
  (37757997362398478619,17); (39987313678256009819,17); (17652713206027939711,26);
  (11988179244834708057,25); (18037851545747139231,24); (19775785516370314656,23);
  (20354870702829387283,22); (188221641910322536,19); (15500485219010424263,20);
  (1119010001056057321,18); (69391565185406617552,19); (35948170579648649345,18);
  (14941909525103032616,17); (46742979492780642582,17); (97904227423171290408,17);
  (10309147225169564443,16); (47022299276154507603,26); (31878571710170115972,25);
  (47940153875711448496,24); (52496623508411440227,23); (53968661134780824779,22);
  (49837081920693776234,21); (40979593830387765545,20); (29533186922862948404,19);
  (18278176130722516369,18); (9447649715018912107,17); (39166075612645333624,17);
  (12214182034643210345,16); (25486177980961291004,16); (26709883037012546541,16);
  (12535083724002034147,25); (8484587142065570825,24); (12753227372734042108,23);
  (13950105363562648921,22); (14325473993765291906,21); (13212452778932829125,20);
  (10849287786885151432,19); (78068089156260172673,19); (48232254570679165833,18);
  (24880659424902394371,17); (10290736929484210803,16); (32005629438795801652,16);
  (66567749162019607914,16); (69488586598121632302,16); (33439394490599745013,25);
  (22600596902211837757,24); (33955927589987356838,23); (37105306061050972474,22);
  (38065263634919156421,21); (35068223415665236079,20); (28760027832105027316,19);
  (20665999500843274339,18); (12747939148516390205,17); (65643636874254000885,17);
  (2709524283793247992,15); (84071174233600734871,16); (17437146284159740233,15);
  (181413487816388316,13)
].
(** table [c] of zBesselI1, src/zm_sf_bessel.c:928-954 *)
Definition I1c : tab := [
  (-28849790431465382128,34); (-35125350943844774657,33); (-7485086701370741975,31);
  (-18383904048277485153,30); (-57303556446977223342,29); (-24449502737311496525,27);
  (-16765373351766929724,25); (-32189516835265773471,23); (51503226936425277377,21);
  (-58674306822281631119,34); (-94884898451194085565,34); (-8503386513660036434,31);
  (-18142997866945285736,30); (-57340238386338193949,29); (-24449138101742183665,27);
  (-16765375646678855842,25); (-32189516826945356325,23); (51503226936412017608,21);
  (-14723362506764340882,33); (13945147385179042899,32); (-19618041857586930923,31);
  (-13343606394065121821,30); (-58649674606973244159,29); (-24426060539669553778,27);
  (-16765631828366988006,25); (-32189515191449587253,23); (51503226931820146445,21);
  (-58203519372580372987,33); (12266326995309845825,31); (-13921625844526453237,30);
  (62228025878281625469,30); (-88636681342142794023,29); (-23661241616744818608,27);
  (-16777870960740520557,25); (-32189402882677074318,23); (51503226479551959376,21);
  (-45801527369223291722,33); (67998819697143727209,32); (-41624857909290468421,31);
  (-32849009406112440998,30); (-3247827569043111827,28); (-25739209934053714983,27);
  (-16730566573215739195,25); (-32190010909008684076,23); (5150322986693207715,20)
].
(** table [a] of zBesselK0, src/zm_sf_bessel.c:1000-1009 *)
Definition K0a : tab := [
  (24307270476772195953,31); (4709166636378530437,28); (67816861334344265568,27);
  (67816840204737508252,25); (43402777777915334676,23); (15624999999999872796,21);
  (25000000000000000448,20); (99999999999999999997,20); (65878327432224993071,31);
  (12083308769932888218,28); (16271062073716412046,26); (14914719278555277887,24);
  (84603509071212245667,23); (2524892993216233391,20); (27898287891460312491,20);
  (11593151565841244874,20)
].
(** table [b] of zBesselK0, src/zm_sf_bessel.c:1010-1067 *)
Definition K0b : tab := [
  (-46430702971053162197,32); (1037793605956372823,29); (-10298475936392057807,29);
  (53632747492333959219,29); (-21674628861036068105,29); (-23316071545820437669,27);
  (22557819578691704059,26); (-92325694638587080009,26); (-33569097781613661759,25);
  (87355061305812582974,24); (-68021202111645760475,23); (27434654781323362319,23);
  (10031787169953909561,20); (42102443824070833334,20); (41447451117883103686,31);
  (-34026589638576604315,30); (93398790624638977468,31); (1518418175079985263,27);
  (-11364911665083029464,27); (20619457602095915719,27); (3043101803757224363,25);
  (-2974973626447455551,24); (80143661611467038568,25); (80937525149549218398,24);
  (-10356346549612699886,22); (28534806627578638795,22); (97369634474060441807,21);
  (32175066577856452683,20); (1117088257074072752,31); (-82865909408297066068,30);
  (94656678749191182763,29); (-3583201984184788338,27); (-95017955656904252761,28);
  (15200595674883329093,26); (-3866326257135605998,25); (-33350340828235103499,25);
  (29359886663960844231,24); (-11266401822556801563,24); (-12113572742435576205,22);
  (63158973673701376253,22); (88291790250128171341,21); (22833982383240512262,20);
  (-32880638807053948433,30); (43194884830465283512,29); (-17455089683104033093,28);
  (-32437330799994764516,28); (47393655539139519778,27); (-11929265603456272466,27);
  (-13177845881013419388,25); (33873375636197969526,25); (32729835880668256625,24);
  (-18367283883002494561,23); (-82830996454188084408,23); (95512732229514251931,22);
  (72233832113719266702,21); (14753187103603405298,20); (79998492614150860098,30);
  (-7025734670268613949,28); (7889882162708458627,28); (11294796399671507085,27);
  (-11360539648638059137,27); (-30346309115270564487,26); (32235585426189451721,26);
  (83575612102298214948,25); (-85169628089198208211,25); (-25740175232173357342,23);
  (1246273401468915277,22); (1068323286919220345,20); (51515690033637395779,21);
  (85465862953544883657,21); (-86111506537356531608,30); (51862926131024597823,29);
  (75884324949371110022,29); (-64011975813006767417,28); (-41966181325111763156,27);
  (91306285446881485314,27); (13573638315827954034,25); (48683213252735694701,26);
  (-38805424608710197066,24); (-1183898646868898061,22); (92796213947750964945,23);
  (89611057737319027776,22); (31464453915862785606,21); (4426764808753663078,20);
  (44400123834164610288,30); (-11411233140911074336,29); (-8820067070246705983,28);
  (-19686735373323381456,28); (19921120728941773855,27); (1454397441858483474,25);
  (18238418041265854754,27); (-45363700392899066037,25); (-21688068222527688542,24);
  (454960621666870347,22); (10435238076080528284,22); (58374528996419979931,22);
  (1661121071042545585,20); (20756008367065750538,21); (-65166519951106397214,31);
  (-5857218285878853958,29); (15550375065815375404,29); (19526509484993563229,28);
  (92637123346818426594,28); (-14136471501812055943,27); (-43024895710889717172,26);
  (-23235612243330592076,25); (40380616133862188804,26); (92783767992909743602,24);
  (72964887597817095035,23); (31316245282223273413,22); (78028233022066428316,22);
  (90014807263791058095,22)
].
(** table [c] of zBesselK0, src/zm_sf_bessel.c:1068-1141 *)
Definition K0c : tab := [
  (45161032649342790231,30); (-42774336988557091369,30); (60998467173896677777,29);
  (19845167242599996944,28); (13097678767280215271,27); (74505822268382641286,27);
  (42893920879106814989,26); (23900851955655303104,25); (12533473009382380357,24);
  (59693359063879871983,24); (2477507066108730458,22); (85106703131389516508,23);
  (22500105115665788755,22); (404461344545216346,20); (36910983340425942762,22);
  (35732826433251464989,31); (-32906649482312266258,31); (70873811190464760555,30);
  (2955132058048417712,28); (22776940472505079894,28); (15175463612815010036,27);
  (99462487812170164133,27); (614487577978539011,24); (3486953188290736075,24);
  (17615836644757657443,24); (76373536037879531886,24); (27098571871205999668,23);
  (73399047381788927036,23); (13439197177355085297,22); (12439943280131230863,22);
  (36343547836242523646,32); (97997961751276137602,33); (10184692699811569047,30);
  (61495184828957652064,30); (50238328349302602543,29); (37498626376004337661,28);
  (26689445483857236307,27); (17591899737346368084,26); (10486448307010701679,25);
  (54986458466257148573,25); (24521456351751345323,24); (88900942259143832228,24);
  (2448394771406830019,22); (45418248688489693045,23); (42479574186923180694,23);
  (52460389348163395857,33); (7480206302650350354,32); (20012201610651998417,31);
  (14887306044735163359,30); (1294670541423294035,28); (10391628915892803144,28);
  (78091180499677328456,28); (53694223626907660084,27); (33063914804658509029,26);
  (17776972424421486506,25); (80833148098458320202,25); (2975555630444881778,23);
  (82945928349220642178,24); (15536921180500112883,23); (14647070522281538711,23);
  (97531436733955514559,34); (24084291220447154982,33); (47654956400897494468,32);
  (40200949504810597783,31); (36726577109162191533,30); (30939005665422637601,29);
  (24122848979784500179,28); (17071884462645525505,27); (10752238955654933405,26);
  (58844190041189462347,26); (27136083303224014597,25); (10102477728604441135,24);
  (28420490721532571809,24); (53637016379451944413,24); (50881312956459247572,24);
  (2173204986818937726,33); (72720052142815590531,34); (128030837955368201,30);
  (11696825543787717167,31); (11083298191597132094,30); (96536661252658773139,30);
  (77242553835198536397,29); (5579836626711057562,27); (3572134529654341437,26);
  (19806931547193682466,26); (92312964655319555313,26); (34666258590861079959,25);
  (98224698307751177077,25); (18648773453825584428,24); (17780062316167651812,24);
  (55012463763851934112,35); (22254763392767319419,34); (37187669817701214965,33);
  (35819585377733489628,32); (34866061263191556694,31); (3110163345062965291,29);
  (25358235662235617663,29); (18597629779492599046,28); (12052654739462999992,27);
  (67501417351172136833,27); (31720052198654584574,26); (11993651363602981832,25);
  (34179130317623363474,25); (65208606745808860158,25); (62430205476536771454,25);
  (15225407517829491689,35); (69834820025664405161,35); (11380182837138781431,33);
  (11369488761077196511,32); (11291168681618466716,31); (10250757630526871007,30);
  (84765287317253141514,30); (62886627779402596211,29); (41142865598366029316,28);
  (23223773435632014408,27); (10985095234166396934,26); (41766260951820336228,26);
  (11958609263543792991,25); (22907574647671878055,25); (22008253973114914005,25);
  (44863058691420695911,36); (22437356594371819978,35); (36107964803015652759,34);
  (37031193629853392081,33); (37341552790439784371,32); (34355950129497564468,31);
  (28719942600171304499,30); (21499646844509516453,29); (14171810843455227171,28);
  (80501118772875784153,28); (38281889106330295876,27); (14621673458431979989,26);
  (42029868696411098586,26); (80785884122023473025,26); (77845438614204963209,26)
].
(** table [d] of zBesselK0, src/zm_sf_bessel.c:1142-1163 *)
Definition K0d : tab := [
  (-79737703860537066166,33); (19543834380466766627,31); (-47230794431646733538,30);
  (14001773785771252004,28); (-54864553020583098585,27); (31601984250143742772,25);
  (-33708783204090252161,23); (16180215937964160437,20); (-52593898374798632343,33);
  (17725913926973236457,31); (-46672234858122387294,30); (13991653503828889207,28);
  (-54863400156413929639,27); (31601976099900075541,25); (-33708783171335864627,23);
  (1618021593795843376,19); (-36135496189875398132,33); (15466239429618130284,31);
  (-45320259146602122624,30); (13945974109459385552,28); (-54853994841172088787,27);
  (31601858228022739196,25); (-3370878233999830232,22); (16180215937704286491,20);
  (-25640663123518180635,33); (13288079339404032671,31); (-43368537955908371563,30);
  (13848103653102203186,28); (-54824335664256344123,27); (31601315173126153586,25);
  (-3370877677903569564,22); (16180215935248373474,20); (-18678321325292127767,33);
  (11354310934105733311,31); (-41057197297998608931,30); (1369399096129635097,27);
  (-54762428935047089835,27); (31599817092775027963,25); (-33708756559715893599,23);
  (1618021592350814424,19)
].
(** table [a] of zBesselK1, src/zm_sf_bessel.c:1187-1196 *)
Definition K1a : tab := [
  (15151605362537935201,32); (3363790951353651035,29); (56514041131016827202,28);
  (67816840255069534052,26); (54253472222259226487,24); (26041666666666637057,22);
  (6250000000000000009,20); (5,1); (-89790303384748696588,30);
  (-14029047449249185771,27); (-15592893752540998113,25); (-11253607018469017569,23);
  (-46421827665011579173,22); (-85370719728648409609,21); (-3079657578292062966,19);
  (10000000000000000004,19)
].
(** table [b] of zBesselK1, src/zm_sf_bessel.c:1197-1262 *)
Definition K1b : tab := [
  (-94055461896630579928,31); (31307934665844664773,30); (42005295001519243251,29);
  (-41636196779679820012,28); (14483026181700966164,27); (11661000205428816914,27);
  (-35023996724943046209,26); (14404279316339005012,25); (5358156415715824208,25);
  (-35249754038612334639,24); (17150324075631641453,23); (-41276362611239191024,24);
  (-46943110979636602591,22); (35085369853392357659,21); (20063574339907819159,20);
  (33998989888944034586,30); (71558979072937373055,30); (-29226856932927698732,28);
  (14591620256525610213,27); (-66141635609854161666,28); (-19991101838984472332,26);
  (59185836628873530572,26); (19562880347358085687,25); (-15814366450418102764,24);
  (76791682910944612028,25); (28354678948323983936,23); (-10217932669418690641,22);
  (-32205661865210048433,22); (43497494842354644077,21); (16110284302315089935,20);
  (-20933987679665541827,29); (79503322090520447316,29); (38000150948242575774,28);
  (-23076136195585571309,27); (-23902880302550799653,27); (31914500937804377478,26);
  (32639909831082417694,26); (-53166994792995439449,25); (-31109524694269240094,25);
  (92575906966353273247,24); (75063709094147644746,26); (-17416491592625765379,22);
  (12138560335171676007,22); (45879687144659643175,21); (11566544716132846709,20);
  (31582384905164908749,29); (-19959561818098999516,28); (86959328920030927557,29);
  (11642778282445577109,27); (43552264337818440471,27); (-15057982160481803238,26);
  (-10101729117980989857,25); (77002002510177612013,26); (19580574235590194233,24);
  (19358461980242834361,24); (-33932339942485532728,23); (-93416673584325090073,23);
  (55800080455912847227,22); (38668683062477179235,21); (72651643500517000658,21);
  (-11554749629758510059,29); (82270678758893273006,29); (-50211156951551538591,29);
  (-14929179050554858361,28); (-27107940791526366702,27); (-42204764086705349384,27);
  (37253098167927628867,26); (24374697215363361156,25); (1414194200690976837,24);
  (-48766389019473918231,24); (-21681387247526720978,23); (29325729929653405236,23);
  (64087534504827239815,22); (26054628289709454356,21); (40156431128194184336,21);
  (25506555170746221691,30); (-13521164018407978152,29); (-83281235274106699399,30);
  (-97764849575562351891,29); (34661828409940354542,28); (39760633711791357544,27);
  (1590290664550452993,25); (-14919441249454941275,26); (-53779684992094351263,25);
  (-27513862296246223142,24); (-97880089725297162007,25); (70787668964515789714,23);
  (46968199862345387583,22); (14745740181663320127,21); (20048622219583455723,21);
  (-34824483072529265585,31); (15157161810563380451,31); (85303859696700686144,31);
  (33455414203743741076,29); (20226016353844285376,28); (5312815400326633499,27);
  (-30799322316418042137,27); (-44455408272954712128,26); (-24293274626893384034,25);
  (-32129079340119038354,25); (5922540368307538885,23); (56822962576781683532,23);
  (27152446516406682732,22); (74075873691848838485,22); (93044450815739269849,22);
  (-27683216166276377232,32); (31986676777610155465,31); (94142986954031445666,31);
  (67934609179456399334,30); (3485152941147002933,29); (-25785248508896551557,28);
  (-28310220027112571258,27); (-16384131113072271115,26); (-32521663350596379097,26);
  (4038138875762230716,24); (51917606978077281001,24); (33420027947470126154,23);
  (13699550623118247094,22); (34405619148342271096,22); (41042919106665762794,22)
].
(** table [c] of zBesselK1, src/zm_sf_bessel.c:1263-1328 *)
Definition K1c : tab := [
  (45281968025889407937,31); (10806749918195271176,30); (96200972728717669027,30);
  (5721422706362526365,28); (36077804282954825099,28); (22465236858536681852,27);
  (1367696126430873523,25); (79561767489531997361,26); (43014380065615550573,25);
  (2092171390555028559,23); (88079183950590176926,24); (30549414408830252064,23);
  (81295715613927890473,23); (14679809476357079195,22); (13439197177355090057,22);
  (76019964430402432637,32); (-2261619859915827119,31); (17904450823779000744,30);
  (91467054855312232717,30); (71378582044879519122,29); (49925255415445769102,28);
  (33767315471315546644,27); (21350774539167751457,26); (12314353082655232903,25);
  (62918685053670619181,25); (27493229298777000013,24); (98085825401369821771,24);
  (26670282677770444935,23); (48967895428135985381,23); (45418248688489697144,23);
  (94180115230375147213,33); (75943117003734061145,33); (30335730243874287654,31);
  (20202796115462268051,30); (16839020189186971198,29); (12907875663127201526,28);
  (9354767612586579892,27); (62471974110281880722,27); (37585985422997380441,26);
  (19838348288114906484,25); (88884862203671982034,25); (32333259238682810218,24);
  (89266668913380400243,24); (16589185669844051903,23); (15536921180500113394,23);
  (15425475332301107271,33); (28674534590132490434,33); (65078462279160216936,32);
  (50939757793961391211,31); (4497983746074897552,29); (36662925847520171711,29);
  (27848878755089582413,28); (1929812005933947782,26); (11950323861976892013,26);
  (64513432758147478287,26); (29422095033982461936,25); (10854433321174584937,24);
  (30307433185818899481,24); (5684098144306501785,23); (53637016379451945253,24);
  (31077953698439839352,34); (86899496170729520378,34); (16258562067326054104,32);
  (14104842571366761537,31); (13019455544084110747,30); (11070466372863950239,29);
  (86890603844230597917,29); (61793722175049967488,28); (39058865943755615801,27);
  (21432806981070368523,26); (99034657762983230155,26); (36925185861895664251,25);
  (10399877577259449786,24); (19644939661550210015,24); (18648773453825584597,24);
  (72831555285336286457,35); (26077534095895783532,34); (44881202059263153495,33);
  (41674329383944385626,32); (39760100480223728037,31); (3483597635535118301,29);
  (279932542127702497,27); (20286513276830758107,28); (13018343087118439152,27);
  (72315927974997999365,27); (33750708681924201599,26); (12688020879407355571,25);
  (35980954090811587848,25); (68358260635246667316,25); (65208606745808860557,25);
  (19026412343503745875,35); (80073765508732553766,35); (13245754278055523992,33);
  (12885201653055058502,32); (12600129301230402587,31); (11283306843147549277,30);
  (92261481309646814329,30); (67812033168299846818,29); (44020645304595102132,28);
  (24685719238301517679,27); (11611886719473112509,26); (43940380936523135466,26);
  (12529878285546791905,25); (23917218527087570384,25); (2290757464767187816,24);
  (53709522135744366512,36); (25239221050372845433,35); (4093314714589908336,33);
  (41152784247617592367,33); (40998840572769381012,32); (37319354625807158852,31);
  (30921671702920868014,30); (22975898538634445343,29); (15049754445782364328,28);
  (85030864719789148982,28); (4025055939111842381,26); (15312755642491878591,26);
  (43865020375297892208,26); (84059737392822153101,26); (80785884122023473319,26)
].
(** table [d] of zBesselK1, src/zm_sf_bessel.c:1329-1350 *)
Definition K1d : tab := [
  (92371554649979581914,33); (-23111336195788410887,31); (57728710326649832559,30);
  (-18002298130091372598,28); (76810375010517145638,27); (-52669973752193823306,25);
  (10112634961227401357,22); (16180215937964160466,20); (61381146507252683381,33);
  (-21034499679806301862,31); (57090233460448415278,30); (-17990724350642330817,28);
  (76809056078388019946,27); (-52669964425290062357,25); (1011263495747828339,21);
  (16180215937970716383,20); (42458150578401296419,33); (-18435733128339016981,31);
  (55534955081564656595,30); (-17938162188526358466,28); (76798230945934117807,27);
  (-52669828728791921259,25); (10112634861753356559,22); (16180215938263409582,20);
  (30314798962267007518,33); (-15915009905364214455,31); (53275907427402047438,30);
  (-17824862013841369751,28); (7676389035644707581,26); (-52669199860465945909,25);
  (10112634217687349189,22); (16180215941108227283,20); (22211515002229271212,33);
  (-13664088221521734796,31); (50585177270502341602,30); (-17645432205894533462,28);
  (76691805594577373698,27); (-52667455286976269634,25); (1011263186281097458,21);
  (16180215954783127877,20)
].
