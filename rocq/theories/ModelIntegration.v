(** Quadrature rules: integration/integrations_1D/integration_gausslegendre_1D.cpp and
    integration/integrations_2D/integration_dunavant_2D.cpp.  The decimal literals are
    taken at face value; reals for double in what is computed from them.  The tables are
    copied literally, weights and points side by side in the order of the source.
    [None] stands for exit(1). *)
From Coq Require Import QArith Reals Qreals List Arith.
From Verif Require Import Outcome ModelStream.
Import ListNotations.

(** ** Gauss-Legendre (1D) *)
(** lines 37-40 *)
Definition gl_1 : list (Q * Q) :=
  [(2.000000000000000000000000000000, 0.000000000000000000000000000000)]%Q.
(** lines 41-46 *)
Definition gl_2 : list (Q * Q) :=
  [(1.000000000000000000000000000000, (-0.577350269189625764509148780502));
   (1.000000000000000000000000000000, 0.577350269189625764509148780502)]%Q.
(** lines 47-54 *)
Definition gl_3 : list (Q * Q) :=
  [(0.555555555555555555555555555556, (-0.774596669241483377035853079956));
   (0.888888888888888888888888888889, 0.000000000000000000000000000000);
   (0.555555555555555555555555555556, 0.774596669241483377035853079956)]%Q.
(** lines 55-64 *)
Definition gl_4 : list (Q * Q) :=
  [(0.347854845137453857373063949222, (-0.861136311594052575223946488893));
   (0.652145154862546142626936050778, (-0.339981043584856264802665759103));
   (0.652145154862546142626936050778, 0.339981043584856264802665759103);
   (0.347854845137453857373063949222, 0.861136311594052575223946488893)]%Q.
(** lines 65-76 *)
Definition gl_5 : list (Q * Q) :=
  [(0.236926885056189087514264040720, (-0.906179845938663992797626878299));
   (0.478628670499366468041291514836, (-0.538469310105683091036314420700));
   (0.568888888888888888888888888889, 0.000000000000000000000000000000);
   (0.478628670499366468041291514836, 0.538469310105683091036314420700);
   (0.236926885056189087514264040720, 0.906179845938663992797626878299)]%Q.
(** lines 77-90 *)
Definition gl_6 : list (Q * Q) :=
  [(0.171324492379170345040296142173, (-0.932469514203152027812301554494));
   (0.360761573048138607569833513838, (-0.661209386466264513661399595020));
   (0.467913934572691047389870343990, (-0.238619186083196908630501721681));
   (0.467913934572691047389870343990, 0.238619186083196908630501721681);
   (0.360761573048138607569833513838, 0.661209386466264513661399595020);
   (0.171324492379170345040296142173, 0.932469514203152027812301554494)]%Q.
(** lines 91-106 *)
Definition gl_7 : list (Q * Q) :=
  [(0.129484966168869693270611432679, (-0.949107912342758524526189684048));
   (0.279705391489276667901467771424, (-0.741531185599394439863864773281));
   (0.381830050505118944950369775489, (-0.405845151377397166906606412077));
   (0.417959183673469387755102040816, 0.000000000000000000000000000000);
   (0.381830050505118944950369775489, 0.405845151377397166906606412077);
   (0.279705391489276667901467771424, 0.741531185599394439863864773281);
   (0.129484966168869693270611432679, 0.949107912342758524526189684048)]%Q.
(** lines 107-124 *)
Definition gl_8 : list (Q * Q) :=
  [(0.101228536290376259152531354310, (-0.960289856497536231683560868569));
   (0.222381034453374470544355994426, (-0.796666477413626739591553936476));
   (0.313706645877887287337962201987, (-0.525532409916328985817739049189));
   (0.362683783378361982965150449277, (-0.183434642495649804939476142360));
   (0.362683783378361982965150449277, 0.183434642495649804939476142360);
   (0.313706645877887287337962201987, 0.525532409916328985817739049189);
   (0.222381034453374470544355994426, 0.796666477413626739591553936476);
   (0.101228536290376259152531354310, 0.960289856497536231683560868569)]%Q.
(** lines 125-144 *)
Definition gl_9 : list (Q * Q) :=
  [(0.081274388361574411971892158111, (-0.968160239507626089835576203));
   (0.18064816069485740405847203124, (-0.836031107326635794299429788));
   (0.26061069640293546231874286942, (-0.613371432700590397308702039));
   (0.31234707704000284006863040658, (-0.324253423403808929038538015));
   (0.33023935500125976316452506929, 0.000000000000000000000000000);
   (0.31234707704000284006863040658, 0.324253423403808929038538015);
   (0.26061069640293546231874286942, 0.613371432700590397308702039);
   (0.18064816069485740405847203124, 0.836031107326635794299429788);
   (0.081274388361574411971892158111, 0.968160239507626089835576203)]%Q.
(** lines 145-166 *)
Definition gl_10 : list (Q * Q) :=
  [(0.066671344308688137593568809893, (-0.973906528517171720077964012));
   (0.14945134915058059314577633966, (-0.865063366688984510732096688));
   (0.21908636251598204399553493423, (-0.679409568299024406234327365));
   (0.26926671930999635509122692157, (-0.433395394129247190799265943));
   (0.29552422471475287017389299465, (-0.148874338981631210884826001));
   (0.29552422471475287017389299465, 0.148874338981631210884826001);
   (0.26926671930999635509122692157, 0.433395394129247190799265943);
   (0.21908636251598204399553493423, 0.679409568299024406234327365);
   (0.14945134915058059314577633966, 0.865063366688984510732096688);
   (0.066671344308688137593568809893, 0.973906528517171720077964012)]%Q.
(** lines 167-190 *)
Definition gl_11 : list (Q * Q) :=
  [(0.055668567116173666482753720443, (-0.978228658146056992803938001));
   (0.12558036946490462463469429922, (-0.887062599768095299075157769));
   (0.18629021092773425142609764143, (-0.730152005574049324093416252));
   (0.23319376459199047991852370484, (-0.519096129206811815925725669));
   (0.26280454451024666218068886989, (-0.269543155952344972331531985));
   (0.27292508677790063071448352834, 0.000000000000000000000000000);
   (0.26280454451024666218068886989, 0.269543155952344972331531985);
   (0.23319376459199047991852370484, 0.519096129206811815925725669);
   (0.18629021092773425142609764143, 0.730152005574049324093416252);
   (0.12558036946490462463469429922, 0.887062599768095299075157769);
   (0.055668567116173666482753720443, 0.978228658146056992803938001)]%Q.
(** lines 191-216 *)
Definition gl_12 : list (Q * Q) :=
  [(0.047175336386511827194615961485, (-0.981560634246719250690549090));
   (0.10693932599531843096025471819, (-0.904117256370474856678465866));
   (0.16007832854334622633465252954, (-0.769902674194304687036893833));
   (0.20316742672306592174906445581, (-0.587317954286617447296702419));
   (0.23349253653835480876084989892, (-0.367831498998180193752691537));
   (0.24914704581340278500056243604, (-0.125233408511468915472441369));
   (0.24914704581340278500056243604, 0.125233408511468915472441369);
   (0.23349253653835480876084989892, 0.367831498998180193752691537);
   (0.20316742672306592174906445581, 0.587317954286617447296702419);
   (0.16007832854334622633465252954, 0.769902674194304687036893833);
   (0.10693932599531843096025471819, 0.904117256370474856678465866);
   (0.047175336386511827194615961485, 0.981560634246719250690549090)]%Q.
(** lines 217-244 *)
Definition gl_13 : list (Q * Q) :=
  [(0.040484004765315879520021592201, (-0.984183054718588149472829449));
   (0.092121499837728447914421775954, (-0.917598399222977965206547837));
   (0.13887351021978723846360177687, (-0.801578090733309912794206490));
   (0.17814598076194573828004669200, (-0.642349339440340220643984607));
   (0.20781604753688850231252321931, (-0.448492751036446852877912852));
   (0.22628318026289723841209018604, (-0.230458315955134794065528121));
   (0.23255155323087391019458951527, 0.000000000000000000000000000);
   (0.22628318026289723841209018604, 0.230458315955134794065528121);
   (0.20781604753688850231252321931, 0.448492751036446852877912852);
   (0.17814598076194573828004669200, 0.642349339440340220643984607);
   (0.13887351021978723846360177687, 0.80157809073330991279420649);
   (0.092121499837728447914421775954, 0.91759839922297796520654784);
   (0.040484004765315879520021592201, 0.98418305471858814947282945)]%Q.
(** lines 245-274 *)
Definition gl_14 : list (Q * Q) :=
  [(0.035119460331751863031832876138, (-0.986283808696812338841597267));
   (0.08015808715976020980563327706, (-0.928434883663573517336391139));
   (0.12151857068790318468941480907, (-0.827201315069764993189794743));
   (0.15720316715819353456960193862, (-0.687292904811685470148019803));
   (0.18553839747793781374171659013, (-0.515248636358154091965290719));
   (0.20519846372129560396592406566, (-0.319112368927889760435671824));
   (0.21526385346315779019587644332, (-0.108054948707343662066244650));
   (0.21526385346315779019587644332, 0.108054948707343662066244650);
   (0.20519846372129560396592406566, 0.31911236892788976043567182);
   (0.18553839747793781374171659013, 0.51524863635815409196529072);
   (0.15720316715819353456960193862, 0.68729290481168547014801980);
   (0.12151857068790318468941480907, 0.82720131506976499318979474);
   (0.08015808715976020980563327706, 0.92843488366357351733639114);
   (0.035119460331751863031832876138, 0.98628380869681233884159727)]%Q.
(** lines 275-306 *)
Definition gl_15 : list (Q * Q) :=
  [(0.030753241996117268354628393577, (-0.987992518020485428489565719));
   (0.070366047488108124709267416451, (-0.937273392400705904307758948));
   (0.107159220467171935011869546686, (-0.848206583410427216200648321));
   (0.13957067792615431444780479451, (-0.724417731360170047416186055));
   (0.16626920581699393355320086048, (-0.570972172608538847537226737));
   (0.18616100001556221102680056187, (-0.394151347077563369897207371));
   (0.19843148532711157645611832644, (-0.201194093997434522300628303));
   (0.20257824192556127288062019997, 0.00000000000000000000000000);
   (0.19843148532711157645611832644, 0.20119409399743452230062830);
   (0.18616100001556221102680056187, 0.39415134707756336989720737);
   (0.16626920581699393355320086048, 0.57097217260853884753722674);
   (0.13957067792615431444780479451, 0.72441773136017004741618605);
   (0.107159220467171935011869546686, 0.84820658341042721620064832);
   (0.070366047488108124709267416451, 0.93727339240070590430775895);
   (0.030753241996117268354628393577, 0.98799251802048542848956572)]%Q.
(** lines 307-340 *)
Definition gl_16 : list (Q * Q) :=
  [(0.027152459411754094851780572456, (-0.989400934991649932596154173));
   (0.062253523938647892862843836994, (-0.944575023073232576077988416));
   (0.09515851168249278480992510760, (-0.865631202387831743880467898));
   (0.12462897125553387205247628219, (-0.755404408355003033895101195));
   (0.14959598881657673208150173055, (-0.617876244402643748446671764));
   (0.16915651939500253818931207903, (-0.458016777657227386342419443));
   (0.18260341504492358886676366797, (-0.281603550779258913230460501));
   (0.18945061045506849628539672321, (-0.09501250983763744018531934));
   (0.18945061045506849628539672321, 0.09501250983763744018531934);
   (0.18260341504492358886676366797, 0.28160355077925891323046050);
   (0.16915651939500253818931207903, 0.45801677765722738634241944);
   (0.14959598881657673208150173055, 0.61787624440264374844667176);
   (0.12462897125553387205247628219, 0.75540440835500303389510119);
   (0.09515851168249278480992510760, 0.86563120238783174388046790);
   (0.062253523938647892862843836994, 0.94457502307323257607798842);
   (0.027152459411754094851780572456, 0.98940093499164993259615417)]%Q.
(** lines 341-376 *)
Definition gl_17 : list (Q * Q) :=
  [(0.024148302868547931960110026288, (-0.990575475314417335675434020));
   (0.055459529373987201129440165359, (-0.950675521768767761222716958));
   (0.085036148317179180883535370191, (-0.880239153726985902122955694));
   (0.111883847193403971094788385626, (-0.781514003896801406925230056));
   (0.13513636846852547328631998170, (-0.657671159216690765850302217));
   (0.15404576107681028808143159480, (-0.512690537086476967886246569));
   (0.16800410215645004450997066379, (-0.35123176345387631529718552));
   (0.17656270536699264632527099011, (-0.17848418149584785585067749));
   (0.17944647035620652545826564426, 0.00000000000000000000000000);
   (0.17656270536699264632527099011, 0.17848418149584785585067749);
   (0.16800410215645004450997066379, 0.35123176345387631529718552);
   (0.15404576107681028808143159480, 0.51269053708647696788624657);
   (0.13513636846852547328631998170, 0.65767115921669076585030222);
   (0.111883847193403971094788385626, 0.78151400389680140692523006);
   (0.085036148317179180883535370191, 0.88023915372698590212295569);
   (0.055459529373987201129440165359, 0.95067552176876776122271696);
   (0.024148302868547931960110026288, 0.99057547531441733567543402)]%Q.
(** lines 377-414 *)
Definition gl_18 : list (Q * Q) :=
  [(0.021616013526483310313342710266, (-0.991565168420930946730016005));
   (0.049714548894969796453334946203, (-0.955823949571397755181195893));
   (0.07642573025488905652912967762, (-0.892602466497555739206060591));
   (0.10094204410628716556281398492, (-0.803704958972523115682417455));
   (0.12255520671147846018451912680, (-0.691687043060353207874891081));
   (0.14064291467065065120473130375, (-0.55977083107394753460787155));
   (0.15468467512626524492541800384, (-0.41175116146284264603593179));
   (0.16427648374583272298605377647, (-0.25188622569150550958897285));
   (0.16914238296314359184065647013, (-0.08477501304173530124226185));
   (0.16914238296314359184065647013, 0.08477501304173530124226185);
   (0.16427648374583272298605377647, 0.25188622569150550958897285);
   (0.15468467512626524492541800384, 0.41175116146284264603593179);
   (0.14064291467065065120473130375, 0.55977083107394753460787155);
   (0.12255520671147846018451912680, 0.69168704306035320787489108);
   (0.10094204410628716556281398492, 0.80370495897252311568241746);
   (0.07642573025488905652912967762, 0.89260246649755573920606059);
   (0.049714548894969796453334946203, 0.95582394957139775518119589);
   (0.021616013526483310313342710266, 0.99156516842093094673001600)]%Q.
(** lines 415-454 *)
Definition gl_19 : list (Q * Q) :=
  [(0.019461788229726477036312041464, (-0.992406843843584403189017670));
   (0.044814226765699600332838157402, (-0.960208152134830030852778841));
   (0.069044542737641226580708258006, (-0.903155903614817901642660929));
   (0.091490021622449999464462094124, (-0.822714656537142824978922487));
   (0.111566645547333994716023901682, (-0.72096617733522937861709586));
   (0.12875396253933622767551578486, (-0.60054530466168102346963816));
   (0.14260670217360661177574610944, (-0.46457074137596094571726715));
   (0.15276604206585966677885540090, (-0.31656409996362983199011733));
   (0.15896884339395434764995643946, (-0.16035864564022537586809612));
   (0.16105444984878369597916362532, 0.00000000000000000000000000);
   (0.15896884339395434764995643946, 0.16035864564022537586809612);
   (0.15276604206585966677885540090, 0.31656409996362983199011733);
   (0.14260670217360661177574610944, 0.46457074137596094571726715);
   (0.12875396253933622767551578486, 0.60054530466168102346963816);
   (0.111566645547333994716023901682, 0.72096617733522937861709586);
   (0.091490021622449999464462094124, 0.82271465653714282497892249);
   (0.069044542737641226580708258006, 0.90315590361481790164266093);
   (0.044814226765699600332838157402, 0.96020815213483003085277884);
   (0.019461788229726477036312041464, 0.99240684384358440318901767)]%Q.
(** lines 455-496 *)
Definition gl_20 : list (Q * Q) :=
  [(0.017614007139152118311861962352, (-0.993128599185094924786122388));
   (0.040601429800386941331039952275, (-0.963971927277913791267666131));
   (0.062672048334109063569506535187, (-0.912234428251325905867752441));
   (0.08327674157670474872475814322, (-0.83911697182221882339452906));
   (0.10193011981724043503675013548, (-0.74633190646015079261430507));
   (0.11819453196151841731237737771, (-0.63605368072651502545283670));
   (0.13168863844917662689849449975, (-0.51086700195082709800436405));
   (0.14209610931838205132929832507, (-0.37370608871541956067254818));
   (0.14917298647260374678782873700, (-0.22778585114164507808049620));
   (0.15275338713072585069808433195, (-0.07652652113349733375464041));
   (0.15275338713072585069808433195, 0.07652652113349733375464041);
   (0.14917298647260374678782873700, 0.22778585114164507808049620);
   (0.14209610931838205132929832507, 0.37370608871541956067254818);
   (0.13168863844917662689849449975, 0.51086700195082709800436405);
   (0.11819453196151841731237737771, 0.63605368072651502545283670);
   (0.10193011981724043503675013548, 0.74633190646015079261430507);
   (0.08327674157670474872475814322, 0.83911697182221882339452906);
   (0.062672048334109063569506535187, 0.91223442825132590586775244);
   (0.040601429800386941331039952275, 0.96397192727791379126766613);
   (0.017614007139152118311861962352, 0.99312859918509492478612239)]%Q.
(** lines 497-540 *)
Definition gl_21 : list (Q * Q) :=
  [(0.016017228257774333324224616858, (-0.99375217062038950026024204));
   (0.036953789770852493799950668299, (-0.96722683856630629431662221));
   (0.057134425426857208283635826472, (-0.92009933415040082879018713));
   (0.076100113628379302017051653300, (-0.85336336458331728364725064));
   (0.093444423456033861553289741114, (-0.76843996347567790861587785));
   (0.108797299167148377663474578070, (-0.66713880419741231930596667));
   (0.12183141605372853419536717713, (-0.55161883588721980705901880));
   (0.13226893863333746178105257450, (-0.42434212020743878357366889));
   (0.13988739479107315472213342387, (-0.28802131680240109660079252));
   (0.14452440398997005906382716655, (-0.14556185416089509093703098));
   (0.14608113364969042719198514768, 0.00000000000000000000000000);
   (0.14452440398997005906382716655, 0.14556185416089509093703098);
   (0.13988739479107315472213342387, 0.28802131680240109660079252);
   (0.13226893863333746178105257450, 0.42434212020743878357366889);
   (0.12183141605372853419536717713, 0.55161883588721980705901880);
   (0.108797299167148377663474578070, 0.66713880419741231930596667);
   (0.093444423456033861553289741114, 0.76843996347567790861587785);
   (0.076100113628379302017051653300, 0.85336336458331728364725064);
   (0.057134425426857208283635826472, 0.92009933415040082879018713);
   (0.036953789770852493799950668299, 0.96722683856630629431662221);
   (0.016017228257774333324224616858, 0.99375217062038950026024204)]%Q.
(** lines 541-586 *)
Definition gl_22 : list (Q * Q) :=
  [(0.014627995298272200684991098047, (-0.99429458548239929207303142));
   (0.033774901584814154793302246866, (-0.97006049783542872712395099));
   (0.052293335152683285940312051273, (-0.92695677218717400052069294));
   (0.06979646842452048809496141893, (-0.86581257772030013653642564));
   (0.08594160621706772741444368137, (-0.78781680597920816200427796));
   (0.10041414444288096493207883783, (-0.69448726318668278005068984));
   (0.11293229608053921839340060742, (-0.58764040350691159295887693));
   (0.12325237681051242428556098615, (-0.46935583798675702640633071));
   (0.13117350478706237073296499253, (-0.34193582089208422515814742));
   (0.13654149834601517135257383123, (-0.20786042668822128547884653));
   (0.13925187285563199337541024834, (-0.06973927331972222121384180));
   (0.13925187285563199337541024834, 0.06973927331972222121384180);
   (0.13654149834601517135257383123, 0.20786042668822128547884653);
   (0.13117350478706237073296499253, 0.34193582089208422515814742);
   (0.12325237681051242428556098615, 0.46935583798675702640633071);
   (0.11293229608053921839340060742, 0.58764040350691159295887693);
   (0.10041414444288096493207883783, 0.69448726318668278005068984);
   (0.08594160621706772741444368137, 0.78781680597920816200427796);
   (0.06979646842452048809496141893, 0.86581257772030013653642564);
   (0.052293335152683285940312051273, 0.92695677218717400052069294);
   (0.033774901584814154793302246866, 0.97006049783542872712395099);
   (0.014627995298272200684991098047, 0.99429458548239929207303142)]%Q.
(** lines 587-634 *)
Definition gl_23 : list (Q * Q) :=
  [(0.013411859487141772081309493459, (-0.99476933499755212352392572));
   (0.030988005856979444310694219642, (-0.97254247121811523195602408));
   (0.048037671731084668571641071632, (-0.93297108682601610234919699));
   (0.064232421408525852127169615159, (-0.87675235827044166737815689));
   (0.079281411776718954922892524742, (-0.80488840161883989215111841));
   (0.092915766060035147477018617370, (-0.71866136313195019446162448));
   (0.104892091464541410074086185015, (-0.61960987576364615638509731));
   (0.11499664022241136494164351293, (-0.50950147784600754968979305));
   (0.12304908430672953046757840067, (-0.39030103803029083142148887));
   (0.12890572218808214997859533940, (-0.26413568097034493053386954));
   (0.13246203940469661737164246470, (-0.13325682429846611093174268));
   (0.13365457218610617535145711055, 0.00000000000000000000000000);
   (0.13246203940469661737164246470, 0.13325682429846611093174268);
   (0.12890572218808214997859533940, 0.26413568097034493053386954);
   (0.12304908430672953046757840067, 0.39030103803029083142148887);
   (0.11499664022241136494164351293, 0.50950147784600754968979305);
   (0.104892091464541410074086185015, 0.61960987576364615638509731);
   (0.092915766060035147477018617370, 0.71866136313195019446162448);
   (0.079281411776718954922892524742, 0.80488840161883989215111841);
   (0.064232421408525852127169615159, 0.87675235827044166737815689);
   (0.048037671731084668571641071632, 0.93297108682601610234919699);
   (0.030988005856979444310694219642, 0.97254247121811523195602408);
   (0.013411859487141772081309493459, 0.99476933499755212352392572)]%Q.
(** lines 635-684 *)
Definition gl_24 : list (Q * Q) :=
  [(0.012341229799987199546805667070, (-0.99518721999702136017999741));
   (0.028531388628933663181307815952, (-0.97472855597130949819839199));
   (0.044277438817419806168602748211, (-0.93827455200273275852364900));
   (0.059298584915436780746367758500, (-0.88641552700440103421315434));
   (0.07334648141108030573403361525, (-0.82000198597390292195394987));
   (0.08619016153195327591718520298, (-0.74012419157855436424382810));
   (0.09761865210411388826988066446, (-0.64809365193697556925249579));
   (0.10744427011596563478257734245, (-0.54542147138883953565837562));
   (0.11550566805372560135334448391, (-0.43379350762604513848708423));
   (0.12167047292780339120446315348, (-0.31504267969616337438679329));
   (0.12583745634682829612137538251, (-0.19111886747361630915863982));
   (0.12793819534675215697405616522, (-0.06405689286260562608504308));
   (0.12793819534675215697405616522, 0.06405689286260562608504308);
   (0.12583745634682829612137538251, 0.19111886747361630915863982);
   (0.12167047292780339120446315348, 0.31504267969616337438679329);
   (0.11550566805372560135334448391, 0.43379350762604513848708423);
   (0.10744427011596563478257734245, 0.54542147138883953565837562);
   (0.09761865210411388826988066446, 0.64809365193697556925249579);
   (0.08619016153195327591718520298, 0.74012419157855436424382810);
   (0.07334648141108030573403361525, 0.82000198597390292195394987);
   (0.059298584915436780746367758500, 0.88641552700440103421315434);
   (0.044277438817419806168602748211, 0.93827455200273275852364900);
   (0.028531388628933663181307815952, 0.97472855597130949819839199);
   (0.012341229799987199546805667070, 0.99518721999702136017999741)]%Q.
(** lines 685-736 *)
Definition gl_25 : list (Q * Q) :=
  [(0.0113937985010262879479029641132, (-0.99555696979049809790878495));
   (0.026354986615032137261901815295, (-0.97666392145951751149831539));
   (0.040939156701306312655623487712, (-0.94297457122897433941401117));
   (0.054904695975835191925936891541, (-0.89499199787827536885104201));
   (0.068038333812356917207187185657, (-0.83344262876083400142102111));
   (0.080140700335001018013234959669, (-0.75925926303735763057728287));
   (0.091028261982963649811497220703, (-0.67356636847346836448512063));
   (0.100535949067050644202206890393, (-0.57766293024122296772368984));
   (0.108519624474263653116093957050, (-0.47300273144571496052218212));
   (0.11485825914571164833932554587, (-0.36117230580938783773582173));
   (0.11945576353578477222817812651, (-0.24386688372098843204519036));
   (0.12224244299031004168895951895, (-0.12286469261071039638735982));
   (0.12317605372671545120390287308, 0.00000000000000000000000000);
   (0.12224244299031004168895951895, 0.12286469261071039638735982);
   (0.11945576353578477222817812651, 0.24386688372098843204519036);
   (0.11485825914571164833932554587, 0.36117230580938783773582173);
   (0.108519624474263653116093957050, 0.47300273144571496052218212);
   (0.100535949067050644202206890393, 0.57766293024122296772368984);
   (0.091028261982963649811497220703, 0.67356636847346836448512063);
   (0.080140700335001018013234959669, 0.75925926303735763057728287);
   (0.068038333812356917207187185657, 0.83344262876083400142102111);
   (0.054904695975835191925936891541, 0.89499199787827536885104201);
   (0.040939156701306312655623487712, 0.94297457122897433941401117);
   (0.026354986615032137261901815295, 0.97666392145951751149831539);
   (0.0113937985010262879479029641132, 0.99555696979049809790878495)]%Q.
(** lines 737-790 *)
Definition gl_26 : list (Q * Q) :=
  [(0.010551372617343007155651187685, (-0.99588570114561692900321696));
   (0.024417851092631908789615827520, (-0.97838544595647099110058035));
   (0.037962383294362763950303141249, (-0.94715906666171425013591528));
   (0.050975825297147811998319900724, (-0.90263786198430707421766560));
   (0.063274046329574835539453689907, (-0.84544594278849801879750706));
   (0.07468414976565974588707579610, (-0.77638594882067885619296725));
   (0.08504589431348523921044776508, (-0.69642726041995726486381391));
   (0.09421380035591414846366488307, (-0.60669229301761806323197875));
   (0.10205916109442542323841407025, (-0.50844071482450571769570306));
   (0.10847184052857659065657942673, (-0.40305175512348630648107738));
   (0.11336181654631966654944071844, (-0.29200483948595689514283538));
   (0.11666044348529658204466250754, (-0.17685882035689018396905775));
   (0.11832141527926227651637108570, (-0.05923009342931320709371858));
   (0.11832141527926227651637108570, 0.05923009342931320709371858);
   (0.11666044348529658204466250754, 0.17685882035689018396905775);
   (0.11336181654631966654944071844, 0.29200483948595689514283538);
   (0.10847184052857659065657942673, 0.40305175512348630648107738);
   (0.10205916109442542323841407025, 0.50844071482450571769570306);
   (0.09421380035591414846366488307, 0.60669229301761806323197875);
   (0.08504589431348523921044776508, 0.69642726041995726486381391);
   (0.07468414976565974588707579610, 0.77638594882067885619296725);
   (0.063274046329574835539453689907, 0.84544594278849801879750706);
   (0.050975825297147811998319900724, 0.90263786198430707421766560);
   (0.037962383294362763950303141249, 0.94715906666171425013591528);
   (0.024417851092631908789615827520, 0.97838544595647099110058035);
   (0.010551372617343007155651187685, 0.99588570114561692900321696)]%Q.
(** lines 791-846 *)
Definition gl_27 : list (Q * Q) :=
  [(0.0097989960512943602611500550912, (-0.99617926288898856693888721));
   (0.022686231596180623196034206447, (-0.97992347596150122285587336));
   (0.035297053757419711022578289305, (-0.95090055781470500685190803));
   (0.047449412520615062704096710114, (-0.90948232067749110430064502));
   (0.058983536859833599110300833720, (-0.85620790801829449030273722));
   (0.069748823766245592984322888357, (-0.79177163907050822714439734));
   (0.079604867773057771263074959010, (-0.71701347373942369929481621));
   (0.088423158543756950194322802854, (-0.63290797194649514092773464));
   (0.096088727370028507565652646558, (-0.54055156457945689490030094));
   (0.102501637817745798671247711533, (-0.44114825175002688058597416));
   (0.107578285788533187212162984427, (-0.33599390363850889973031903));
   (0.111252488356845192672163096043, (-0.22645936543953685885723911));
   (0.113476346108965148620369948092, (-0.11397258560952996693289498));
   (0.11422086737895698904504573690, 0.00000000000000000000000000);
   (0.113476346108965148620369948092, 0.11397258560952996693289498);
   (0.111252488356845192672163096043, 0.22645936543953685885723911);
   (0.107578285788533187212162984427, 0.33599390363850889973031903);
   (0.102501637817745798671247711533, 0.44114825175002688058597416);
   (0.096088727370028507565652646558, 0.54055156457945689490030094);
   (0.088423158543756950194322802854, 0.63290797194649514092773464);
   (0.079604867773057771263074959010, 0.71701347373942369929481621);
   (0.069748823766245592984322888357, 0.79177163907050822714439734);
   (0.058983536859833599110300833720, 0.85620790801829449030273722);
   (0.047449412520615062704096710114, 0.90948232067749110430064502);
   (0.035297053757419711022578289305, 0.95090055781470500685190803);
   (0.022686231596180623196034206447, 0.97992347596150122285587336);
   (0.0097989960512943602611500550912, 0.99617926288898856693888721)]%Q.
(** lines 847-904 *)
Definition gl_28 : list (Q * Q) :=
  [(0.009124282593094517738816153923, (-0.99644249757395444995043639));
   (0.021132112592771259751500380993, (-0.98130316537087275369455995));
   (0.032901427782304379977630819171, (-0.95425928062893819725410184));
   (0.044272934759004227839587877653, (-0.91563302639213207386968942));
   (0.055107345675716745431482918227, (-0.86589252257439504894225457));
   (0.06527292396699959579339756678, (-0.80564137091717917144788596));
   (0.07464621423456877902393188717, (-0.73561087801363177202814451));
   (0.08311341722890121839039649824, (-0.65665109403886496121989818));
   (0.09057174439303284094218603134, (-0.56972047181140171930800328));
   (0.09693065799792991585048900610, (-0.47587422495511826103441185));
   (0.10211296757806076981421663851, (-0.37625151608907871022135721));
   (0.10605576592284641791041643700, (-0.27206162763517807767682636));
   (0.10871119225829413525357151930, (-0.16456928213338077128147178));
   (0.11004701301647519628237626560, (-0.05507928988403427042651653));
   (0.11004701301647519628237626560, 0.05507928988403427042651653);
   (0.10871119225829413525357151930, 0.16456928213338077128147178);
   (0.10605576592284641791041643700, 0.27206162763517807767682636);
   (0.10211296757806076981421663851, 0.37625151608907871022135721);
   (0.09693065799792991585048900610, 0.47587422495511826103441185);
   (0.09057174439303284094218603134, 0.56972047181140171930800328);
   (0.08311341722890121839039649824, 0.65665109403886496121989818);
   (0.07464621423456877902393188717, 0.73561087801363177202814451);
   (0.06527292396699959579339756678, 0.80564137091717917144788596);
   (0.055107345675716745431482918227, 0.86589252257439504894225457);
   (0.044272934759004227839587877653, 0.91563302639213207386968942);
   (0.032901427782304379977630819171, 0.95425928062893819725410184);
   (0.021132112592771259751500380993, 0.98130316537087275369455995);
   (0.009124282593094517738816153923, 0.99644249757395444995043639)]%Q.
(** lines 905-964 *)
Definition gl_29 : list (Q * Q) :=
  [(0.0085169038787464096542638133022, (-0.99667944226059658616319153));
   (0.019732085056122705983859801640, (-0.98254550526141317487092602));
   (0.030740492202093622644408525375, (-0.95728559577808772579820804));
   (0.041402062518682836104830010114, (-0.92118023295305878509375344));
   (0.051594826902497923912594381180, (-0.87463780492010279041779342));
   (0.061203090657079138542109848024, (-0.81818548761525244498957221));
   (0.070117933255051278569581486949, (-0.75246285173447713391261008));
   (0.078238327135763783828144888660, (-0.67821453760268651515618501));
   (0.085472257366172527545344849297, (-0.59628179713822782037958621));
   (0.091737757139258763347966411077, (-0.50759295512422764210262792));
   (0.096963834094408606301900074883, (-0.41315288817400866389070659));
   (0.101091273759914966121820546907, (-0.31403163786763993494819592));
   (0.104073310077729373913328471285, (-0.21135228616600107450637573));
   (0.105876155097320941406591327852, (-0.10627823013267923017098239));
   (0.10647938171831424424651112691, 0.00000000000000000000000000);
   (0.105876155097320941406591327852, 0.10627823013267923017098239);
   (0.104073310077729373913328471285, 0.21135228616600107450637573);
   (0.101091273759914966121820546907, 0.31403163786763993494819592);
   (0.096963834094408606301900074883, 0.41315288817400866389070659);
   (0.091737757139258763347966411077, 0.50759295512422764210262792);
   (0.085472257366172527545344849297, 0.59628179713822782037958621);
   (0.078238327135763783828144888660, 0.67821453760268651515618501);
   (0.070117933255051278569581486949, 0.75246285173447713391261008);
   (0.061203090657079138542109848024, 0.81818548761525244498957221);
   (0.051594826902497923912594381180, 0.87463780492010279041779342);
   (0.041402062518682836104830010114, 0.92118023295305878509375344);
   (0.030740492202093622644408525375, 0.95728559577808772579820804);
   (0.019732085056122705983859801640, 0.98254550526141317487092602);
   (0.0085169038787464096542638133022, 0.99667944226059658616319153)]%Q.
(** lines 965-1026 *)
Definition gl_30 : list (Q * Q) :=
  [(0.007968192496166605615465883475, (-0.99689348407464954027163005));
   (0.018466468311090959142302131912, (-0.98366812327974720997003258));
   (0.028784707883323369349719179611, (-0.96002186496830751221687103));
   (0.038799192569627049596801936446, (-0.92620004742927432587932428));
   (0.048402672830594052902938140423, (-0.88256053579205268154311646));
   (0.057493156217619066481721689402, (-0.82956576238276839744289812));
   (0.06597422988218049512812851512, (-0.76777743210482619491797734));
   (0.07375597473770520626824385002, (-0.69785049479331579693229239));
   (0.08075589522942021535469493846, (-0.62052618298924286114047756));
   (0.08689978720108297980238753072, (-0.53662414814201989926416979));
   (0.09212252223778612871763270709, (-0.44703376953808917678060990));
   (0.09636873717464425963946862635, (-0.35270472553087811347103721));
   (0.09959342058679526706278028210, (-0.25463692616788984643980513));
   (0.10176238974840550459642895217, (-0.15386991360858354696379467));
   (0.10285265289355884034128563671, (-0.05147184255531769583302521));
   (0.10285265289355884034128563671, 0.05147184255531769583302521);
   (0.10176238974840550459642895217, 0.15386991360858354696379467);
   (0.09959342058679526706278028210, 0.25463692616788984643980513);
   (0.09636873717464425963946862635, 0.35270472553087811347103721);
   (0.09212252223778612871763270709, 0.44703376953808917678060990);
   (0.08689978720108297980238753072, 0.53662414814201989926416979);
   (0.08075589522942021535469493846, 0.62052618298924286114047756);
   (0.07375597473770520626824385002, 0.69785049479331579693229239);
   (0.06597422988218049512812851512, 0.76777743210482619491797734);
   (0.057493156217619066481721689402, 0.82956576238276839744289812);
   (0.048402672830594052902938140423, 0.88256053579205268154311646);
   (0.038799192569627049596801936446, 0.92620004742927432587932428);
   (0.028784707883323369349719179611, 0.96002186496830751221687103);
   (0.018466468311090959142302131912, 0.98366812327974720997003258);
   (0.007968192496166605615465883475, 0.99689348407464954027163005)]%Q.
(** lines 1027-1090 *)
Definition gl_31 : list (Q * Q) :=
  [(0.0074708315792487758586968750322, (-0.99708748181947707405562655));
   (0.017318620790310582463157996087, (-0.98468590966515248400246517));
   (0.027009019184979421800608708092, (-0.96250392509294966178905240));
   (0.036432273912385464024392010468, (-0.93075699789664816495694576));
   (0.045493707527201102902315857895, (-0.88976002994827104337419201));
   (0.054103082424916853711666259087, (-0.83992032014626734008690454));
   (0.062174786561028426910343543687, (-0.78173314841662494040636002));
   (0.069628583235410366167756126255, (-0.71577678458685328390597087));
   (0.076390386598776616426357674901, (-0.64270672292426034618441820));
   (0.082392991761589263903823367432, (-0.56324916140714926272094492));
   (0.087576740608477876126198069695, (-0.47819378204490248044059404));
   (0.091890113893641478215362871607, (-0.38838590160823294306135146));
   (0.095290242912319512807204197488, (-0.29471806998170161661790390));
   (0.097743335386328725093474010979, (-0.19812119933557062877241300));
   (0.099225011226672307874875514429, (-0.09955531215234152032517479));
   (0.09972054479342645142753383373, 0.00000000000000000000000000);
   (0.099225011226672307874875514429, 0.09955531215234152032517479);
   (0.097743335386328725093474010979, 0.19812119933557062877241300);
   (0.095290242912319512807204197488, 0.29471806998170161661790390);
   (0.091890113893641478215362871607, 0.38838590160823294306135146);
   (0.087576740608477876126198069695, 0.47819378204490248044059404);
   (0.082392991761589263903823367432, 0.56324916140714926272094492);
   (0.076390386598776616426357674901, 0.64270672292426034618441820);
   (0.069628583235410366167756126255, 0.71577678458685328390597087);
   (0.062174786561028426910343543687, 0.78173314841662494040636002);
   (0.054103082424916853711666259087, 0.83992032014626734008690454);
   (0.045493707527201102902315857895, 0.88976002994827104337419201);
   (0.036432273912385464024392010468, 0.93075699789664816495694576);
   (0.027009019184979421800608708092, 0.96250392509294966178905240);
   (0.017318620790310582463157996087, 0.98468590966515248400246517);
   (0.0074708315792487758586968750322, 0.99708748181947707405562655)]%Q.
(** lines 1091-1156 *)
Definition gl_32 : list (Q * Q) :=
  [(0.007018610009470096600407063739, (-0.99726386184948156354498113));
   (0.016274394730905670605170562206, (-0.98561151154526833540017504));
   (0.025392065309262059455752589789, (-0.96476225558750643077381193));
   (0.034273862913021433102687732252, (-0.93490607593773968917091913));
   (0.042835898022226680656878646606, (-0.89632115576605212396530724));
   (0.050998059262376176196163244690, (-0.84936761373256997013369300));
   (0.058684093478535547145283637300, (-0.79448379596794240696309730));
   (0.06582222277636184683765006371, (-0.73218211874028968038742667));
   (0.07234579410884850622539935648, (-0.66304426693021520097511517));
   (0.07819389578707030647174091883, (-0.58771575724076232904074548));
   (0.08331192422694675522219907460, (-0.50689990893222939002374747));
   (0.08765209300440381114277146275, (-0.42135127613063534536411944));
   (0.09117387869576388471286857711, (-0.33186860228212764977991681));
   (0.09384439908080456563918023767, (-0.23928736225213707454460321));
   (0.09563872007927485941908200220, (-0.14447196158279649348518637));
   (0.09654008851472780056676483006, (-0.04830766568773831623481257));
   (0.09654008851472780056676483006, 0.04830766568773831623481257);
   (0.09563872007927485941908200220, 0.14447196158279649348518637);
   (0.09384439908080456563918023767, 0.23928736225213707454460321);
   (0.09117387869576388471286857711, 0.33186860228212764977991681);
   (0.08765209300440381114277146275, 0.42135127613063534536411944);
   (0.08331192422694675522219907460, 0.50689990893222939002374747);
   (0.07819389578707030647174091883, 0.58771575724076232904074548);
   (0.07234579410884850622539935648, 0.66304426693021520097511517);
   (0.06582222277636184683765006371, 0.73218211874028968038742667);
   (0.058684093478535547145283637300, 0.79448379596794240696309730);
   (0.050998059262376176196163244690, 0.84936761373256997013369300);
   (0.042835898022226680656878646606, 0.89632115576605212396530724);
   (0.034273862913021433102687732252, 0.93490607593773968917091913);
   (0.025392065309262059455752589789, 0.96476225558750643077381193);
   (0.016274394730905670605170562206, 0.98561151154526833540017504);
   (0.007018610009470096600407063739, 0.99726386184948156354498113)]%Q.
(** lines 1157-1224 *)
Definition gl_33 : list (Q * Q) :=
  [(0.0066062278475873780586492352085, (-0.99742469424645521726616802));
   (0.015321701512934676127945768534, (-0.98645572623064248811037570));
   (0.023915548101749480350533257529, (-0.96682290968999276892837771));
   (0.032300358632328953281561447250, (-0.93869437261116835035583512));
   (0.040401541331669591563409790527, (-0.90231676774343358304053133));
   (0.048147742818711695670146880138, (-0.85800965267650406464306148));
   (0.055470846631663561284944495439, (-0.80616235627416658979620087));
   (0.062306482530317480031627725771, (-0.74723049644956215785905512));
   (0.068594572818656712805955073015, (-0.68173195996974278626821595));
   (0.074279854843954149342472175919, (-0.61024234583637902730728751));
   (0.079312364794886738363908384942, (-0.53338990478634764354889426));
   (0.083647876067038707613928014518, (-0.45185001727245069572599328));
   (0.087248287618844337607281670945, (-0.36633925774807334107022062));
   (0.090081958660638577239743705500, (-0.27760909715249702940324807));
   (0.092123986643316846213240977717, (-0.18643929882799157233579876));
   (0.093356426065596116160999126274, (-0.09363106585473338567074292));
   (0.09376844616020999656730454155, 0.00000000000000000000000000);
   (0.093356426065596116160999126274, 0.09363106585473338567074292);
   (0.092123986643316846213240977717, 0.18643929882799157233579876);
   (0.090081958660638577239743705500, 0.27760909715249702940324807);
   (0.087248287618844337607281670945, 0.36633925774807334107022062);
   (0.083647876067038707613928014518, 0.45185001727245069572599328);
   (0.079312364794886738363908384942, 0.53338990478634764354889426);
   (0.074279854843954149342472175919, 0.61024234583637902730728751);
   (0.068594572818656712805955073015, 0.68173195996974278626821595);
   (0.062306482530317480031627725771, 0.74723049644956215785905512);
   (0.055470846631663561284944495439, 0.80616235627416658979620087);
   (0.048147742818711695670146880138, 0.85800965267650406464306148);
   (0.040401541331669591563409790527, 0.90231676774343358304053133);
   (0.032300358632328953281561447250, 0.93869437261116835035583512);
   (0.023915548101749480350533257529, 0.96682290968999276892837771);
   (0.015321701512934676127945768534, 0.98645572623064248811037570);
   (0.0066062278475873780586492352085, 0.99742469424645521726616802)]%Q.
(** GPData, lines 32-1228; nothing is pushed for other numbers of points. *)
Definition gl_data (number_gp : nat) : list (Q * Q) :=
  match number_gp with
  | 1 => gl_1
  | 2 => gl_2
  | 3 => gl_3
  | 4 => gl_4
  | 5 => gl_5
  | 6 => gl_6
  | 7 => gl_7
  | 8 => gl_8
  | 9 => gl_9
  | 10 => gl_10
  | 11 => gl_11
  | 12 => gl_12
  | 13 => gl_13
  | 14 => gl_14
  | 15 => gl_15
  | 16 => gl_16
  | 17 => gl_17
  | 18 => gl_18
  | 19 => gl_19
  | 20 => gl_20
  | 21 => gl_21
  | 22 => gl_22
  | 23 => gl_23
  | 24 => gl_24
  | 25 => gl_25
  | 26 => gl_26
  | 27 => gl_27
  | 28 => gl_28
  | 29 => gl_29
  | 30 => gl_30
  | 31 => gl_31
  | 32 => gl_32
  | 33 => gl_33
  | _ => []
  end%nat.
(** Lines 28-30: ceil((p + 1) / 2). *)
Definition gl_num (p : nat) : nat := ((p + 2) / 2)%nat.
(** Lines 4-26. *)
Definition gl_rule (p : nat) : option (list (R * R)) :=
  if (65 <? p)%nat then None else Some (map (fun wx => (Q2R (fst wx), Q2R (snd wx))) (gl_data (gl_num p))).

(** The double the compiler makes of a decimal literal: the nearest number of 53 binary
    digits, ties to even (exponents unbounded). *)
Definition rounded (q : Q) : Z * (N * Z) :=
  if (Qnum q =? 0)%Z then (0%Z, (0%N, 0%Z)) else (Z.sgn (Qnum q), round_to 2 53 (Z.to_N (Z.abs (Qnum q))) (Npos (Qden q))).
Definition literal (q : Q) : R :=
  let '(sg, (m, e)) := rounded q in (IZR sg * (IZR (Z.of_N m) * powerRZ 2 e))%R.
Definition gl_doubles (p : nat) : option (list (R * R)) :=
  if (65 <? p)%nat then None else Some (map (fun wx => (literal (fst wx), literal (snd wx))) (gl_data (gl_num p))).

(** ** Dunavant (2D) *)
(** lines 357-362 *)
Definition dun_1 : list (Q * (Q * Q * Q)) :=
  [(1.000000000000000, (0.333333333333333, 0.333333333333333, 0.333333333333333))]%Q.
(** lines 363-368 *)
Definition dun_2 : list (Q * (Q * Q * Q)) :=
  [(0.333333333333333, (0.666666666666667, 0.166666666666667, 0.166666666666667))]%Q.
(** lines 369-377 *)
Definition dun_3 : list (Q * (Q * Q * Q)) :=
  [((-0.562500000000000), (0.333333333333333, 0.333333333333333, 0.333333333333333));
   (0.520833333333333, (0.600000000000000, 0.200000000000000, 0.200000000000000))]%Q.
(** lines 378-386 *)
Definition dun_4 : list (Q * (Q * Q * Q)) :=
  [(0.223381589678011, (0.108103018168070, 0.445948490915965, 0.445948490915965));
   (0.109951743655322, (0.816847572980459, 0.091576213509771, 0.091576213509771))]%Q.
(** lines 387-398 *)
Definition dun_5 : list (Q * (Q * Q * Q)) :=
  [(0.225000000000000, (0.333333333333333, 0.333333333333333, 0.333333333333333));
   (0.132394152788506, (0.059715871789770, 0.470142064105115, 0.470142064105115));
   (0.125939180544827, (0.797426985353087, 0.101286507323456, 0.101286507323456))]%Q.
(** lines 399-410 *)
Definition dun_6 : list (Q * (Q * Q * Q)) :=
  [(0.116786275726379, (0.501426509658179, 0.249286745170910, 0.249286745170910));
   (0.050844906370207, (0.873821971016996, 0.063089014491502, 0.063089014491502));
   (0.082851075618374, (0.053145049844817, 0.310352451033784, 0.636502499121399))]%Q.
(** lines 411-425 *)
Definition dun_7 : list (Q * (Q * Q * Q)) :=
  [((-0.149570044467682), (0.333333333333333, 0.333333333333333, 0.333333333333333));
   (0.175615257433208, (0.479308067841920, 0.260345966079040, 0.260345966079040));
   (0.053347235608838, (0.869739794195568, 0.065130102902216, 0.065130102902216));
   (0.077113760890257, (0.048690315425316, 0.312865496004874, 0.638444188569810))]%Q.
(** lines 426-443 *)
Definition dun_8 : list (Q * (Q * Q * Q)) :=
  [(0.144315607677787, (0.333333333333333, 0.333333333333333, 0.333333333333333));
   (0.095091634267285, (0.081414823414554, 0.459292588292723, 0.459292588292723));
   (0.103217370534718, (0.658861384496480, 0.170569307751760, 0.170569307751760));
   (0.032458497623198, (0.898905543365938, 0.050547228317031, 0.050547228317031));
   (0.027230314174435, (0.008394777409958, 0.263112829634638, 0.728492392955404))]%Q.
(** lines 444-464 *)
Definition dun_9 : list (Q * (Q * Q * Q)) :=
  [(0.097135796282799, (0.333333333333333, 0.333333333333333, 0.333333333333333));
   (0.031334700227139, (0.020634961602525, 0.489682519198738, 0.489682519198738));
   (0.077827541004774, (0.125820817014127, 0.437089591492937, 0.437089591492937));
   (0.079647738927210, (0.623592928761935, 0.188203535619033, 0.188203535619033));
   (0.025577675658698, (0.910540973211095, 0.044729513394453, 0.044729513394453));
   (0.043283539377289, (0.036838412054736, 0.221962989160766, 0.741198598784498))]%Q.
(** lines 465-485 *)
Definition dun_10 : list (Q * (Q * Q * Q)) :=
  [(0.090817990382754, (0.333333333333333, 0.333333333333333, 0.333333333333333));
   (0.036725957756467, (0.028844733232685, 0.485577633383657, 0.485577633383657));
   (0.045321059435528, (0.781036849029926, 0.109481575485037, 0.109481575485037));
   (0.072757916845420, (0.141707219414880, 0.307939838764121, 0.550352941820999));
   (0.028327242531057, (0.025003534762686, 0.246672560639903, 0.728323904597411));
   (0.009421666963733, (0.009540815400299, 0.066803251012200, 0.923655933587500))]%Q.
(** lines 486-509 *)
Definition dun_11 : list (Q * (Q * Q * Q)) :=
  [(0.000927006328961, ((-0.069222096541517), 0.534611048270758, 0.534611048270758));
   (0.077149534914813, (0.202061394068290, 0.398969302965855, 0.398969302965855));
   (0.059322977380774, (0.593380199137435, 0.203309900431282, 0.203309900431282));
   (0.036184540503418, (0.761298175434837, 0.119350912282581, 0.119350912282581));
   (0.013659731002678, (0.935270103777448, 0.032364948111276, 0.032364948111276));
   (0.052337111962204, (0.050178138310495, 0.356620648261293, 0.593201213428213));
   (0.020707659639141, (0.021022016536166, 0.171488980304042, 0.807489003159792))]%Q.
(** lines 510-536 *)
Definition dun_12 : list (Q * (Q * Q * Q)) :=
  [(0.025731066440455, (0.02356522045239, 0.488217389773805, 0.488217389773805));
   (0.043692544538038, (0.120551215411079, 0.43972439229446, 0.43972439229446));
   (0.062858224217885, (0.457579229975768, 0.271210385012116, 0.271210385012116));
   (0.034796112930709, (0.744847708916828, 0.127576145541586, 0.127576145541586));
   (0.006166261051559, (0.957365299093579, 0.02131735045321, 0.02131735045321));
   (0.040371557766381, (0.115343494534698, 0.275713269685514, 0.608943235779788));
   (0.022356773202303, (0.022838332222257, 0.28132558098994, 0.695836086787803));
   (0.017316231108659, (0.02573405054833, 0.116251915907597, 0.858014033544073))]%Q.
(** lines 537-569 *)
Definition dun_13 : list (Q * (Q * Q * Q)) :=
  [(0.052520923400802, (0.333333333333333, 0.333333333333333, 0.333333333333333));
   (0.01128014520933, (0.009903630120591, 0.495048184939705, 0.495048184939705));
   (0.031423518362454, (0.062566729780852, 0.468716635109574, 0.468716635109574));
   (0.047072502504194, (0.170957326397447, 0.414521336801277, 0.414521336801277));
   (0.047363586536355, (0.541200855914337, 0.229399572042831, 0.229399572042831));
   (0.031167529045794, (0.77115100960734, 0.11442449519633, 0.11442449519633));
   (0.007975771465074, (0.950377217273082, 0.024811391363459, 0.024811391363459));
   (0.036848402728732, (0.094853828379579, 0.268794997058761, 0.63635117456166));
   (0.017401463303822, (0.018100773278807, 0.291730066734288, 0.690169159986905));
   (0.015521786839045, (0.02223307667409, 0.126357385491669, 0.851409537834241))]%Q.
(** lines 570-602 *)
Definition dun_14 : list (Q * (Q * Q * Q)) :=
  [(0.021883581369429, (0.022072179275643, 0.488963910362179, 0.488963910362179));
   (0.032788353544125, (0.164710561319092, 0.417644719340454, 0.417644719340454));
   (0.051774104507292, (0.453044943382323, 0.273477528308839, 0.273477528308839));
   (0.042162588736993, (0.645588935174913, 0.177205532412543, 0.177205532412543));
   (0.014433699669777, (0.876400233818255, 0.061799883090873, 0.061799883090873));
   (0.0049234036024, (0.961218077502598, 0.019390961248701, 0.019390961248701));
   (0.024665753212564, (0.057124757403648, 0.172266687821356, 0.770608554774996));
   (0.038571510787061, (0.092916249356972, 0.336861459796345, 0.570222290846683));
   (0.014436308113534, (0.014646950055654, 0.298372882136258, 0.686980167808088));
   (0.005010228838501, (0.001268330932872, 0.118974497696957, 0.879757171370171))]%Q.
(** lines 603-638 *)
Definition dun_15 : list (Q * (Q * Q * Q)) :=
  [(0.001916875642849, ((-0.013945833716486), 0.506972916858243, 0.506972916858243));
   (0.044249027271145, (0.137187291433955, 0.431406354283023, 0.431406354283023));
   (0.051186548718852, (0.444612710305711, 0.277693644847144, 0.277693644847144));
   (0.023687735870688, (0.747070217917492, 0.126464891041254, 0.126464891041254));
   (0.013289775690021, (0.858383228050628, 0.070808385974686, 0.070808385974686));
   (0.004748916608192, (0.962069659517853, 0.018965170241073, 0.018965170241073));
   (0.038550072599593, (0.133734161966621, 0.261311371140087, 0.604954466893291));
   (0.027215814320624, (0.036366677396917, 0.388046767090269, 0.575586555512814));
   (0.002182077366797, ((-0.010174883126571), 0.285712220049916, 0.724462663076655));
   (0.021505319847731, (0.036843869875878, 0.215599664072284, 0.747556466051838));
   (0.007673942631049, (0.012459809331199, 0.103575616576386, 0.883964574092416))]%Q.
(** lines 639-680 *)
Definition dun_16 : list (Q * (Q * Q * Q)) :=
  [(0.046875697427642, (0.333333333333333, 0.333333333333333, 0.333333333333333));
   (0.006405878578585, (0.005238916103123, 0.497380541948438, 0.497380541948438));
   (0.041710296739387, (0.173061122901295, 0.413469438549352, 0.413469438549352));
   (0.026891484250064, (0.059082801866017, 0.470458599066991, 0.470458599066991));
   (0.04213252276165, (0.518892500060958, 0.240553749969521, 0.240553749969521));
   (0.030000266842773, (0.704068411554854, 0.147965794222573, 0.147965794222573));
   (0.014200098925024, (0.849069624685052, 0.075465187657474, 0.075465187657474));
   (0.003582462351273, (0.96680719475395, 0.016596402623025, 0.016596402623025));
   (0.032773147460627, (0.103575692245252, 0.296555596579887, 0.599868711174861));
   (0.015298306248441, (0.020083411655416, 0.337723063403079, 0.642193524941505));
   (0.002386244192839, ((-0.004341002614139), 0.204748281642812, 0.799592720971327));
   (0.019084792755899, (0.04194178646801, 0.189358492130623, 0.768699721401368));
   (0.006850054546542, (0.014317320230681, 0.085283615682657, 0.900399064086661))]%Q.
(** lines 681-728 *)
Definition dun_17 : list (Q * (Q * Q * Q)) :=
  [(0.033437199290803, (0.333333333333333, 0.333333333333333, 0.333333333333333));
   (0.005093415440507, (0.005658918886452, 0.497170540556774, 0.497170540556774));
   (0.014670864527638, (0.035647354750751, 0.482176322624625, 0.482176322624625));
   (0.024350878353672, (0.099520061958437, 0.450239969020782, 0.450239969020782));
   (0.031107550868969, (0.199467521245206, 0.400266239377397, 0.400266239377397));
   (0.03125711121862, (0.495717464058095, 0.252141267970953, 0.252141267970953));
   (0.024815654339665, (0.675905990683077, 0.162047004658461, 0.162047004658461));
   (0.014056073070557, (0.848248235478508, 0.075875882260746, 0.075875882260746));
   (0.003194676173779, (0.968690546064356, 0.015654726967822, 0.015654726967822));
   (0.008119655318993, (0.010186928826919, 0.334319867363658, 0.655493203809423));
   (0.026805742283163, (0.135440871671036, 0.292221537796944, 0.57233759053202));
   (0.018459993210822, (0.054423924290583, 0.31957488542319, 0.626001190286228));
   (0.008476868534328, (0.012868560833637, 0.190704224192292, 0.796427214974071));
   (0.018292796770025, (0.067165782413524, 0.180483211648746, 0.752351005937729));
   (0.006665632004165, (0.014663182224828, 0.080711313679564, 0.904625504095608))]%Q.
(** lines 729-782 *)
Definition dun_18 : list (Q * (Q * Q * Q)) :=
  [(0.030809939937647, (0.333333333333333, 0.333333333333333, 0.333333333333333));
   (0.009072436679404, (0.013310382738157, 0.493344808630921, 0.493344808630921));
   (0.018761316939594, (0.061578811516086, 0.469210594241957, 0.469210594241957));
   (0.019441097985477, (0.127437208225989, 0.436281395887006, 0.436281395887006));
   (0.02775394861081, (0.210307658653168, 0.394846170673416, 0.394846170673416));
   (0.032256225351457, (0.500410862393686, 0.249794568803157, 0.249794568803157));
   (0.025074032616922, (0.677135612512315, 0.161432193743843, 0.161432193743843));
   (0.015271927971832, (0.846803545029257, 0.076598227485371, 0.076598227485371));
   (0.006793922022963, (0.9514951212931, 0.02425243935345, 0.02425243935345));
   ((-0.00222309872992), (0.913707265566071, 0.043146367216965, 0.043146367216965));
   (0.006331914076406, (0.00843053620242, 0.358911494940944, 0.632657968856636));
   (0.027257538049138, (0.131186551737188, 0.294402476751957, 0.574410971510855));
   (0.017676785649465, (0.050203151565675, 0.325017801641814, 0.624779046792512));
   (0.01837948463807, (0.066329263810916, 0.184737559666046, 0.748933176523037));
   (0.008104732808192, (0.011996194566236, 0.218796800013321, 0.769207005420443));
   (0.007634129070725, (0.014858100590125, 0.101179597136408, 0.883962302273467));
   (0.000046187660794, ((-0.035222015287949), 0.020874755282586, 1.01434726000536))]%Q.
(** lines 783-836 *)
Definition dun_19 : list (Q * (Q * Q * Q)) :=
  [(0.032906331388919, (0.333333333333333, 0.333333333333333, 0.333333333333333));
   (0.010330731891272, (0.020780025853987, 0.489609987073006, 0.489609987073006));
   (0.022387247263016, (0.090926214604215, 0.454536892697893, 0.454536892697893));
   (0.030266125869468, (0.197166638701138, 0.401416680649431, 0.401416680649431));
   (0.030490967802198, (0.488896691193805, 0.255551654403098, 0.255551654403098));
   (0.024159212741641, (0.645844115695741, 0.17707794215213, 0.17707794215213));
   (0.016050803586801, (0.779877893544096, 0.110061053227952, 0.110061053227952));
   (0.008084580261784, (0.888942751496321, 0.05552862425184, 0.05552862425184));
   (0.002079362027485, (0.974756272445543, 0.012621863777229, 0.012621863777229));
   (0.003884876904981, (0.003611417848412, 0.395754787356943, 0.600633794794645));
   (0.025574160612022, (0.13446675453078, 0.307929983880436, 0.557603261588784));
   (0.008880903573338, (0.014446025776115, 0.26456694840652, 0.720987025817365));
   (0.016124546761731, (0.046933578838178, 0.358539352205951, 0.594527068955871));
   (0.002491941817491, (0.002861120350567, 0.157807405968595, 0.839331473680839));
   (0.018242840118951, (0.223861424097916, 0.075050596975911, 0.701087978926173));
   (0.010258563736199, (0.03464707481676, 0.142421601113383, 0.822931324069857));
   (0.003799928855302, (0.010161119296278, 0.065494628082938, 0.924344252620784))]%Q.
(** lines 837-896 *)
Definition dun_20 : list (Q * (Q * Q * Q)) :=
  [(0.033057055541624, (0.333333333333333, 0.333333333333333, 0.333333333333333));
   (0.000867019185663, ((-0.0019009287044), 0.5009504643522, 0.5009504643522));
   (0.011660052716448, (0.023574084130543, 0.488212957934729, 0.488212957934729));
   (0.022876936356421, (0.089726636099435, 0.455136681950283, 0.455136681950283));
   (0.030448982673938, (0.196007481363421, 0.401996259318289, 0.401996259318289));
   (0.030624891725355, (0.488214180481157, 0.255892909759421, 0.255892909759421));
   (0.0243680576768, (0.647023488009788, 0.176488255995106, 0.176488255995106));
   (0.015997432032024, (0.791658289326483, 0.104170855336758, 0.104170855336758));
   (0.007698301815602, (0.89386207231814, 0.05306896384093, 0.05306896384093));
   ((-0.000632060497488), (0.916762569607942, 0.041618715196029, 0.041618715196029));
   (0.001751134301193, (0.976836157186356, 0.011581921406822, 0.011581921406822));
   (0.016465839189576, (0.048741583664839, 0.344855770229001, 0.60640264610616));
   (0.004839033540485, (0.006314115948605, 0.377843269594854, 0.615842614456541));
   (0.02580490653465, (0.134316520547348, 0.306635479062357, 0.559048000390295));
   (0.008471091054441, (0.013973893962392, 0.249419362774742, 0.736606743262866));
   (0.01835491410628, (0.075549132909764, 0.212775724802802, 0.711675142287434));
   (0.000704404677908, ((-0.008368153208227), 0.146965436053239, 0.861402717154987));
   (0.010112684927462, (0.026686063258714, 0.137726978828923, 0.835586957912363));
   (0.00357390938595, (0.010547719294141, 0.059696109149007, 0.929756171556853))]%Q.
(** Lines 354-900. *)
Definition dun_data (p : nat) : list (Q * (Q * Q * Q)) :=
  match p with
  | 0 => dun_1
  | 1 => dun_1
  | 2 => dun_2
  | 3 => dun_3
  | 4 => dun_4
  | 5 => dun_5
  | 6 => dun_6
  | 7 => dun_7
  | 8 => dun_8
  | 9 => dun_9
  | 10 => dun_10
  | 11 => dun_11
  | 12 => dun_12
  | 13 => dun_13
  | 14 => dun_14
  | 15 => dun_15
  | 16 => dun_16
  | 17 => dun_17
  | 18 => dun_18
  | 19 => dun_19
  | 20 => dun_20
  | _ => []
  end%nat.
(** Lines 126-352. *)
Definition dun_perm (p : nat) : list nat :=
  match p with
  | 0 => [1]
  | 1 => [1]
  | 2 => [3]
  | 3 => [1; 3]
  | 4 => [3; 3]
  | 5 => [1; 3; 3]
  | 6 => [3; 3; 6]
  | 7 => [1; 3; 3; 6]
  | 8 => [1; 3; 3; 3; 6]
  | 9 => [1; 3; 3; 3; 3; 6]
  | 10 => [1; 3; 3; 6; 6; 6]
  | 11 => [3; 3; 3; 3; 3; 6; 6]
  | 12 => [3; 3; 3; 3; 3; 6; 6; 6]
  | 13 => [1; 3; 3; 3; 3; 3; 3; 6; 6; 6]
  | 14 => [3; 3; 3; 3; 3; 3; 6; 6; 6; 6]
  | 15 => [3; 3; 3; 3; 3; 3; 6; 6; 6; 6; 6]
  | 16 => [1; 3; 3; 3; 3; 3; 3; 3; 6; 6; 6; 6; 6]
  | 17 => [1; 3; 3; 3; 3; 3; 3; 3; 3; 6; 6; 6; 6; 6; 6]
  | 18 => [1; 3; 3; 3; 3; 3; 3; 3; 3; 3; 6; 6; 6; 6; 6; 6; 6]
  | 19 => [1; 3; 3; 3; 3; 3; 3; 3; 3; 6; 6; 6; 6; 6; 6; 6; 6]
  | 20 => [1; 3; 3; 3; 3; 3; 3; 3; 3; 3; 3; 6; 6; 6; 6; 6; 6; 6; 6]
  | _ => []
  end%nat.
(** Lines 78-124. *)
Definition dun_num (p : nat) : nat :=
  nth p [1; 1; 3; 4; 6; 7; 12; 13; 16; 19; 25; 27; 33; 37; 42; 48; 52; 61; 70; 73; 79]%nat 0%nat.
(** Lines 27-73: the points made from one row; [a], [b], [c] are its three coordinates. *)
Definition dun_orbit (permutation : nat) (row : Q * (Q * Q * Q)) : list (R * (R * R)) :=
  let '(w, (a, b, c)) := row in
  let point x y := ((2 * Q2R w)%R, ((2 * Q2R x - 1)%R, (2 * Q2R y - 1)%R)) in
  match permutation with
  | 1 => [point a b]
  | 3 => [point a b; point b c; point c a]
  | 6 => [point a b; point b c; point c a; point b a; point c b; point a c]
  | _ => []
  end%nat.
(** Lines 4-76.  The vectors are sized by the sum of the permutation numbers, which is the
    number of points made as long as these are 1, 3 or 6. *)
Definition dun_rule (p : nat) : option (list (R * (R * R))) :=
  if (20 <? p)%nat then None
  else if (length (dun_perm p) =? length (dun_data p))%nat
  then Some (flat_map (fun x => dun_orbit (fst x) (snd x)) (combine (dun_perm p) (dun_data p)))
  else None.

(** Sum of weight times value, as every caller forms it. *)
Definition quad1 (rule : list (R * R)) (f : R -> R) : R := fold_right (fun wx s => (fst wx * f (snd wx) + s)%R) 0%R rule.
Definition quad2 (rule : list (R * (R * R))) (f : R -> R -> R) : R :=
  fold_right (fun wx s => (fst wx * f (fst (snd wx)) (snd (snd wx)) + s)%R) 0%R rule.

(** master/elements_2D/master_triangle.tpp line 9 (area rule of an element of order p) and
    geometry/boundary.hpp line 83, interface.hpp line 127, edge_interface.hpp line 59,
    edge_boundary.hpp line 54 (face rule). *)
Definition area_rule (p : nat) := dun_rule (2 * p).
Definition face_rule (p : nat) := gl_rule (2 * p + 1).
