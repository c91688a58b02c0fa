(** The prime field of src/bn256.rs:4-7, certificates for the moduli and the generators of
    src/bn256.rs and src/experiments/mod.rs (Lehmer's test, P_Lehmer.v), and the constants of the
    first of these fields. *)
From Coq Require Import NArith Lia.
From mathcomp Require Import all_ssreflect all_algebra.
From Verif Require Import M_Base M_Field M_Bytes SpecHash SpecField Instances Fr251 P_Lucas P_Lehmer P_Declared.

Set Implicit Arguments.
Unset Strict Implicit.
Unset Printing Implicit Defensive.
Import GRing.Theory.
Local Open Scope ring_scope.

Lemma all_cons (T : Type) (Q : pred T) x s : Q x -> all Q s -> all Q (x :: s).
Proof. by move=> /= -> ->. Qed.

(** * The prime factors of p - 1 *)
Lemma prime_10177 : prime (N.to_nat 10177).
Proof.
apply: (@lucasP 10177 7 [:: 2; 2; 2; 2; 2; 2; 3; 53]%num); last by vm_compute.
by vm_compute.
Qed.
Lemma prime_523 : prime (N.to_nat 523).
Proof.
apply: (@lucasP 523 2 [:: 2; 3; 3; 29]%num); last by vm_compute.
by vm_compute.
Qed.
Lemma prime_20921 : prime (N.to_nat 20921).
Proof.
apply: (@lucasP 20921 3 [:: 2; 2; 2; 5; 523]%num); last by vm_compute.
apply: all_cons; first by vm_compute.
apply: all_cons; first by vm_compute.
apply: all_cons; first by vm_compute.
apply: all_cons; first by vm_compute.
apply: all_cons; first exact: prime_523.
by [].
Qed.
Lemma prime_125527 : prime (N.to_nat 125527).
Proof.
apply: (@lucasP 125527 5 [:: 2; 3; 20921]%num); last by vm_compute.
apply: all_cons; first by vm_compute.
apply: all_cons; first by vm_compute.
apply: all_cons; first exact: prime_20921.
by [].
Qed.
Lemma prime_47737 : prime (N.to_nat 47737).
Proof.
apply: (@lucasP 47737 5 [:: 2; 2; 2; 3; 3; 3; 13; 17]%num); last by vm_compute.
by vm_compute.
Qed.
Lemma prime_859267 : prime (N.to_nat 859267).
Proof.
apply: (@lucasP 859267 2 [:: 2; 3; 3; 47737]%num); last by vm_compute.
apply: all_cons; first by vm_compute.
apply: all_cons; first by vm_compute.
apply: all_cons; first by vm_compute.
apply: all_cons; first exact: prime_47737.
by [].
Qed.
Lemma prime_1607 : prime (N.to_nat 1607).
Proof.
apply: (@lucasP 1607 5 [:: 2; 11; 73]%num); last by vm_compute.
by vm_compute.
Qed.
Lemma prime_906349 : prime (N.to_nat 906349).
Proof.
apply: (@lucasP 906349 2 [:: 2; 2; 3; 47; 1607]%num); last by vm_compute.
apply: all_cons; first by vm_compute.
apply: all_cons; first by vm_compute.
apply: all_cons; first by vm_compute.
apply: all_cons; first by vm_compute.
apply: all_cons; first exact: prime_1607.
by [].
Qed.
Lemma prime_2508409 : prime (N.to_nat 2508409).
Proof.
apply: (@lucasP 2508409 11 [:: 2; 2; 2; 3; 3; 3; 3; 7; 7; 79]%num); last by vm_compute.
by vm_compute.
Qed.
Lemma prime_18329 : prime (N.to_nat 18329).
Proof.
apply: (@lucasP 18329 3 [:: 2; 2; 2; 29; 79]%num); last by vm_compute.
by vm_compute.
Qed.
Lemma prime_2529403 : prime (N.to_nat 2529403).
Proof.
apply: (@lucasP 2529403 2 [:: 2; 3; 23; 18329]%num); last by vm_compute.
apply: all_cons; first by vm_compute.
apply: all_cons; first by vm_compute.
apply: all_cons; first by vm_compute.
apply: all_cons; first exact: prime_18329.
by [].
Qed.
Lemma prime_449 : prime (N.to_nat 449).
Proof.
apply: (@lucasP 449 3 [:: 2; 2; 2; 2; 2; 2; 7]%num); last by vm_compute.
by vm_compute.
Qed.
Lemma prime_609743 : prime (N.to_nat 609743).
Proof.
apply: (@lucasP 609743 5 [:: 2; 7; 97; 449]%num); last by vm_compute.
apply: all_cons; first by vm_compute.
apply: all_cons; first by vm_compute.
apply: all_cons; first by vm_compute.
apply: all_cons; first exact: prime_449.
by [].
Qed.
Lemma prime_52437899 : prime (N.to_nat 52437899).
Proof.
apply: (@lucasP 52437899 2 [:: 2; 43; 609743]%num); last by vm_compute.
apply: all_cons; first by vm_compute.
apply: all_cons; first by vm_compute.
apply: all_cons; first exact: prime_609743.
by [].
Qed.
Lemma prime_359 : prime (N.to_nat 359).
Proof.
apply: (@lucasP 359 7 [:: 2; 179]%num); last by vm_compute.
by vm_compute.
Qed.
Lemma prime_110573 : prime (N.to_nat 110573).
Proof.
apply: (@lucasP 110573 3 [:: 2; 2; 7; 11; 359]%num); last by vm_compute.
apply: all_cons; first by vm_compute.
apply: all_cons; first by vm_compute.
apply: all_cons; first by vm_compute.
apply: all_cons; first by vm_compute.
apply: all_cons; first exact: prime_359.
by [].
Qed.
Lemma prime_2653753 : prime (N.to_nat 2653753).
Proof.
apply: (@lucasP 2653753 5 [:: 2; 2; 2; 3; 110573]%num); last by vm_compute.
apply: all_cons; first by vm_compute.
apply: all_cons; first by vm_compute.
apply: all_cons; first by vm_compute.
apply: all_cons; first by vm_compute.
apply: all_cons; first exact: prime_110573.
by [].
Qed.
Lemma prime_63690073 : prime (N.to_nat 63690073).
Proof.
apply: (@lucasP 63690073 7 [:: 2; 2; 2; 3; 2653753]%num); last by vm_compute.
apply: all_cons; first by vm_compute.
apply: all_cons; first by vm_compute.
apply: all_cons; first by vm_compute.
apply: all_cons; first by vm_compute.
apply: all_cons; first exact: prime_2653753.
by [].
Qed.
Lemma prime_254760293 : prime (N.to_nat 254760293).
Proof.
apply: (@lucasP 254760293 2 [:: 2; 2; 63690073]%num); last by vm_compute.
apply: all_cons; first by vm_compute.
apply: all_cons; first by vm_compute.
apply: all_cons; first exact: prime_63690073.
by [].
Qed.
Lemma prime_1233929 : prime (N.to_nat 1233929).
Proof.
apply: (@lucasP 1233929 6 [:: 2; 2; 2; 17; 43; 211]%num); last by vm_compute.
by vm_compute.
Qed.
Lemma prime_2467859 : prime (N.to_nat 2467859).
Proof.
apply: (@lucasP 2467859 2 [:: 2; 1233929]%num); last by vm_compute.
apply: all_cons; first by vm_compute.
apply: all_cons; first exact: prime_1233929.
by [].
Qed.
Lemma prime_4935719 : prime (N.to_nat 4935719).
Proof.
apply: (@lucasP 4935719 17 [:: 2; 2467859]%num); last by vm_compute.
apply: all_cons; first by vm_compute.
apply: all_cons; first exact: prime_2467859.
by [].
Qed.
Lemma prime_98714381 : prime (N.to_nat 98714381).
Proof.
apply: (@lucasP 98714381 2 [:: 2; 2; 5; 4935719]%num); last by vm_compute.
apply: all_cons; first by vm_compute.
apply: all_cons; first by vm_compute.
apply: all_cons; first by vm_compute.
apply: all_cons; first exact: prime_4935719.
by [].
Qed.
Lemma prime_829 : prime (N.to_nat 829).
Proof.
apply: (@lucasP 829 2 [:: 2; 2; 3; 3; 23]%num); last by vm_compute.
by vm_compute.
Qed.
Lemma prime_8291 : prime (N.to_nat 8291).
Proof.
apply: (@lucasP 8291 2 [:: 2; 5; 829]%num); last by vm_compute.
apply: all_cons; first by vm_compute.
apply: all_cons; first by vm_compute.
apply: all_cons; first exact: prime_829.
by [].
Qed.
Lemma prime_9269339 : prime (N.to_nat 9269339).
Proof.
apply: (@lucasP 9269339 6 [:: 2; 13; 43; 8291]%num); last by vm_compute.
apply: all_cons; first by vm_compute.
apply: all_cons; first by vm_compute.
apply: all_cons; first by vm_compute.
apply: all_cons; first exact: prime_8291.
by [].
Qed.
Lemma prime_166848103 : prime (N.to_nat 166848103).
Proof.
apply: (@lucasP 166848103 6 [:: 2; 3; 3; 9269339]%num); last by vm_compute.
apply: all_cons; first by vm_compute.
apply: all_cons; first by vm_compute.
apply: all_cons; first by vm_compute.
apply: all_cons; first exact: prime_9269339.
by [].
Qed.

(** * The certificates *)
Definition fr255_prog : seq instr := [::
  Load 0;
  Sq 0%num;
  Sq 0%num;
  Sq 0%num;
  Sq 0%num;
  Sq 0%num;
  Sq 0%num;
  Sq 28374002383455616023208543417500%num;
  Mul 0 3%num;
  Sq 35951407340842178404446615939532630351249856968826513332116370728582956633380%num;
  Mul 0 6%num;
  Sq 31188609682290556792472482771390787673089476124702320786119045270760343835602%num;
  Mul 0 1%num;
  Sq 37080365819275985933854635927147068059223008103464538201322076515548402480847%num;
  Mul 0 3%num;
  Sq 14530490382875016803434349805804060894331576283709739172388719681953498172458%num;
  Mul 0 0%num;
  Sq 14464191543258171081941748641942174780384063349473484355722065202860821923417%num;
  Sq 23022016851680035440017640244764107310634667281063404405589677103442931954156%num;
  Mul 0 4%num;
  Sq 233367988930540419956939006222275194098148335579317467945191731427087090754%num;
  Mul 0 5%num;
  Sq 275664602729266423949071148318666984212820111669709194150409701784906513644%num;
  Sq 5569978423007027327559943212560431961741186968248318622420725866417082606837%num;
  Sq 10347328589732634628676664855938973999900501122318290919615498475738338414145%num;
  Sq 18466976738411891333400071800868687450658835804839813271488686693049978264054%num;
  Mul 0 2%num;
  Sq 8773405981058402028629198391769619174415279622559839137872722984758949256805%num;
  Mul 0 1%num;
  Sq 1281909787949918978858420897113806460497544753026749993209662903116080615%num;
  Sq 29936359360748072967631749924233053318345312171600201820435388380534774155368%num;
  Mul 0 4%num;
  Sq 26326731817759606544063178517137124832347707758736420851749852344546333336058%num;
  Mul 0 4%num;
  Sq 27058915328150020068181275143675703155587693333698534845573141675994281086%num;
  Mul 0 0%num;
  Sq 15457216121814277808585405332264789127977265119552565435990137808645565326%num;
  Sq 25630350638398499682699665284576812842392072777930103024334176083967005820575%num;
  Sq 339785919754516621937458532022468310680568044565219203841048519803312588032%num;
  Mul 0 3%num;
  Sq 3250827302790311483164905111008648936512632497701652718773568091305955433875%num;
  Sq 30654978849676111935429562104923166766041657121816190854678264134884000939108%num;
  Mul 0 0%num;
  Sq 13975169740374735756316660950665184275462455608036823320613456830769515232608%num;
  Mul 0 4%num;
  Sq 36571622754229197896716950563475655851976485962111921462114497866409002522587%num;
  Sq 14446868213375989665036574806306113496852498068226395755286691238794182357477%num;
  Mul 0 5%num;
  Sq 26584673320379815822515765689031719496915858836150647862035033852511560969300%num;
  Sq 1354570135979842361403323800969332335501353521109134133834502564584251205969%num;
  Mul 0 3%num;
  Sq 858559566564347087239127122823208680354130735790349010716960380974730645039%num;
  Mul 0 0%num;
  Sq 21343456833616382170442095661693343031184569978350130921915601413941238807584%num;
  Sq 31989727155985086787431596712826506817042107992267475249116755136920589942945%num;
  Sq 5310149565853116949193532777567344102915966480452327654429378985522204811791%num;
  Mul 0 1%num;
  Sq 4383523365642134906610041009286128135556521872764430708671505928170739270799%num;
  Sq 47730297339668552421285774622951549002921766378710343124612311919965398177282%num;
  Mul 0 6%num;
  Sq 11655001399759036041762649230049803842874846244527007151981385220179801894727%num;
  Sq 14311484436964561094822815290986540468575795470005271883800336559185939353216%num;
  Sq 6132948353841764039454131726283277332203794287563198405722274516465685207336%num;
  Mul 0 4%num;
  Sq 36501468117943643953900309720939961638209267688679703075694153873723042421392%num;
  Sq 11895671869527225240265362321024511204506492029203565934503636933046454828924%num;
  Sq 23869304388627980498931880878600557981872144870955957187754341284138267011957%num;
  Sq 29553995511711298218570386472027584159499469494904636525470657414747453332038%num;
  Sq 1121588446250911354259198761934012185760359100953597458344978008865023962661%num;
  Sq 99218153896381426316078487933223612743017929951422663490427141605643508970%num;
  Sq 18884967692944757210445293468802119683721282578828964079839789507010187911443%num;
  Mul 0 0%num;
  Sq 1757984144330656798714459753305892496736009972352629202866428043827288851765%num;
  Sq 7976430197384863099950011340088149446955212623138346100336357647855720062773%num;
  Mul 0 4%num;
  Sq 18038719011313714461637737251976869813884968612316054881702383938939524984360%num;
  Mul 0 0%num;
  Sq 10948322740100411735739186313645471708504663451869163456555555150848008380913%num;
  Sq 35620177194582323868777838559226826160144954814044542852436831030926554409644%num;
  Mul 0 5%num;
  Sq 50794528300950422605261696491076745856278005446980783594066276548452300490276%num;
  Mul 0 3%num;
  Sq 21434410447713610781172147083566475983184064620124524863987393062769970701888%num;
  Mul 0 1%num;
  Sq 41337440955574662107874894562420739299766020245103037142959737153751607886268%num;
  Sq 1766832897151035465037512962791732424210175033577754858536290845986109047288%num;
  Sq 19178870716528836046690142978609871827484188991202368348326045770522957994570%num;
  Mul 0 1%num;
  Sq 3577508902271965943255234298620950455174805714607621579273788667506217451924%num;
  Sq 1306407280205283915339242538885717724959252967378113868717006725024140508598%num;
  Sq 49162756318515838542419141375382928003535236860949630648243067347962190569284%num;
  Sq 16702340520303738129723002806799575752627926452026942649298769604801945092282%num;
  Sq 2582277361501083623809776020633526143017217378274657950298421880866814702126%num;
  Mul 0 1%num;
  Sq 24032247991281245928783589714964012904297704754340206652091516048896514640987%num;
  Sq 3362146785644885044856448689626167397146170313633409883924318104695426391062%num;
  Sq 23661592885113838072327420065537564295787831726810640570692061610458678785509%num;
  Sq 6341101508699206132295966063103692623403673921643895849250153861540613122819%num;
  Mul 0 3%num;
  Sq 35683157972778175497439705025045814599676625143697609944212793311143982190696%num;
  Mul 0 0%num;
  Sq 17179721981145185583962641984009961278175557861197299503217367145612955210%num;
  Sq 22078518314154846265627066027583782490342117165638685136743256715534779889336%num;
  Sq 1380766285815487854450686215025361232124131277859495840402719785624021928057%num;
  Sq 31345987069292684151421996631127602378797457378362799292963084621230118769264%num;
  Sq 39563501326141789076950770953716891446572886092751547343487772148204294040087%num;
  Mul 0 0%num;
  Sq 24369957279040076892228315755989116766666084485635793201498126538646189970903%num;
  Sq 28281704333603385651905238195895280593561005393702548346859588501581722037750%num;
  Mul 0 1%num;
  Sq 25694898259698413020039045492219314247044998991200829662521333569065470065280%num;
  Sq 823012352215317986491403824505471888840269012419098935746223483806165997193%num;
  Mul 0 0%num;
  Sq 10663193707903130213052815832759306987671259514780427738122595736129601922969%num;
  Mul 0 5%num;
  Sq 1925021703821921161055807395427862766613529883172404437577134015392028950764%num;
  Sq 2078156795377818805107884386837293735534387521443631208391660995023529954895%num;
  Sq 33402799835480434481260984395824551007244093785081421986730182919812630783206%num;
  Sq 1161240995402176586941112858654016880225439195017948403470085655936474900399%num;
  Mul 0 5%num;
  Sq 36838399372311570531952430280702609339832838920464278512788823935102923024023%num;
  Sq 22847475365612539278534338484483135535187557724163341411658642472848024430107%num;
  Mul 0 6%num;
  Sq 159833555170413673496548231321206951321231325686331884294686695243971381650%num;
  Mul 0 0%num;
  Sq 1004134488305089123956065298749650017697441344111129041661436868540867650723%num;
  Mul 0 1%num;
  Sq 40987121604873485006101652163698743819753956273967325839689256581067085441547%num;
  Sq 1368919620893079466568979664940779174663056849417638029445262788749742915828%num;
  Mul 0 5%num;
  Sq 507464417194275668389398362902719292175404012091372183920775501598999022180%num;
  Mul 0 1%num;
  Sq 49069694776829080093067507213673205265482893242628516554725039932716227576980%num;
  Mul 0 0%num;
  Sq 19124889922101069582772813187422185007970346244578664135325317275214034347849%num;
  Sq 1008056019229409659585900218295265486030257779585240141241137663395586698082%num;
  Mul 0 6%num;
  Sq 33312122457560962669483118249702153081242249055087197834283410282928987125987%num;
  Sq 35114812457650488693144030353261387494827519871781633844102977976065583925197%num;
  Sq 16807915313494573243096477938697015997095924172471518925872585097803352614253%num;
  Sq 24702054183452224980752564110894895636348600294896562916644360771251127048244%num;
  Mul 0 0%num;
  Sq 73134520436536027432167008620132528193843319291932773397450065680524013610%num;
  Mul 0 0%num;
  Sq 2684890896293848435916579447643621711730835934975430820018974799008060232575%num;
  Sq 23226581478711587598288135684958386891965191913506234485605807007227667235771%num;
  Sq 18016003884312205918845712667739075949881412562157462119773430662679398627367%num;
  Sq 31559644471109663624227154646173134284668849436142293210833913602652760678614%num;
  Mul 0 3%num;
  Sq 1299612453468472939190265107817275679367863787064429273357362022685246754440%num;
  Mul 0 5%num;
  Sq 88764137643839868124138767437688621133961094338917090523842721247671211035%num;
  Sq 33735468889695541796139439043854170978231736467200592628972952021859909758910%num;
  Sq 16612979194336416529122186434160443194390695943706391557564325389015220058213%num;
  Sq 1727918223533929039671812082414693583858544829862164733507364804039625650453%num;
  Sq 10804532451236217606894482308153921773530917382141842478600118690717456724302%num;
  Sq 12816694572329374328245454310135586079964342192855208449481961189865642684681%num;
  Sq 12723655166802082246590524462067981441206393523754937966241786240298870486756%num;
  Sq 51371861883425796637625237832251468932749576664924527690243767193044135457028%num;
  Sq 31030724662439019996930210547935292109002377837609866201009879770620123733015%num;
  Mul 0 2%num;
  Sq 40435357673302015916076868536088666443548163256129956287098363249082242161382%num;
  Sq 31924112924317969659525124656644302612008812713872083739285658686403767918763%num;
  Sq 15152437678014647943831774163221231397844212451821605934212651924406417894588%num;
  Sq 2461168921782063102601795609840002927269492574345562346466764269647894863482%num;
  Mul 0 1%num;
  Sq 737595789989426238183491313550323903979672690188338257073003333138363894530%num;
  Mul 0 5%num;
  Sq 28906575783117404783989418634329854358804792991023419443159550992010844538506%num;
  Mul 0 1%num;
  Sq 1463737703304341814386647614595941030695088780774301801552853747258347246978%num;
  Sq 36015330579750118840162967085347461275801484803305878239968836219446478581648%num;
  Mul 0 3%num;
  Sq 2215492682919814261758285416362022857272881392947863679909407617612419289044%num;
  Mul 0 3%num;
  Sq 2819359129142860531378068619899556870205136241056214457564237178500446560421%num;
  Sq 3847831427922578689678121891900521430113128088294304690245467604903686504777%num;
  Sq 1511746371344738651618228392672050513743767688187804091791114120057362292165%num;
  Mul 0 4%num;
  Save;
  Load 0;
  Sq 0%num;
  Mul 0 0%num;
  Sq 0%num;
  Mul 0 0%num;
  Sq 0%num;
  Sq 0%num;
  Sq 0%num;
  Mul 0 0%num;
  Sq 41835796391098038149%num;
  Sq 38127892853809258048600837910154166832339576693351850425996259605114380018294%num;
  Sq 13311702690216352648271902993819907686077032432556326266961801196843706478191%num;
  Sq 20293979129442827802055008402948779102489330114271582981370044216731475866127%num;
  Mul 0 6%num;
  Sq 28939900088503428308788652596667065495042725151679200606702340777863727716647%num;
  Sq 33465658573762217392439239993143891213849143887812106346867158868109724401252%num;
  Mul 0 2%num;
  Sq 227371251577268530245933608046043378037109237837375342507583267300258811828%num;
  Mul 0 3%num;
  Sq 19279363200936480748191263179786815641014672464848571635906572174017638518305%num;
  Sq 10177061006602219073885580760533614651461960730431512208459867646054375657327%num;
  Mul 0 0%num;
  Sq 21886326229565523811938675456406390009918391973687609354126237776727758821306%num;
  Mul 0 6%num;
  Sq 22104492463918202189278687319281618710585296743707397738512221509029255309210%num;
  Sq 1445359456703738363831518905107405209000502355780668005824568959465693767805%num;
  Mul 0 0%num;
  Sq 367402248215714575721248181946674360882564290647853887681344900369508651473%num;
  Sq 312220332225386292140719231721760130078185161125626729058396031679072977326%num;
  Mul 0 0%num;
  Sq 528577731538825885577824408005492018761147851014809933472092570543401986%num;
  Sq 1107550788369328048028550607813977468402502057618125968323438285305633079348%num;
  Mul 0 0%num;
  Sq 1703908229775838816790877898337674073743254898311764565322897363766036829860%num;
  Mul 0 0%num;
  Sq 3789578618962075210926983689295928111606361400236629950558315991673728944063%num;
  Sq 21188075210257736363595158946932601981660074775768985892543488927794182193493%num;
  Sq 17176547955650946241493852447678084899365572902298277011411534413131294698019%num;
  Sq 24780063800457613549397710174965473766668412574263497563730844448650247164757%num;
  Sq 16052935698884767926974681586605749970827474647040616031946537525514216713218%num;
  Sq 6922558069085614101736669161687726355325809695240523793871517110427185625405%num;
  Sq 5952712214057013667393057442460928255986058354175107653455097766926250310055%num;
  Sq 7128909490657259455431518172927008666387009016858278732506128025552274597451%num;
  Sq 12395042269346103983628544815446201495716139075257796094524641502954124549619%num;
  Sq 9653420594686483240923125654332479571652902536210868322821498332364037934855%num;
  Mul 0 2%num;
  Sq 28848931061585403926161788397025688155258408286789639164650427612994168193918%num;
  Mul 0 5%num;
  Sq 15953835225700528709561688277145616439830072271135781531228999992267098471992%num;
  Sq 62509591849663417590910519246537414060436818755985718343387637208084903844%num;
  Sq 12385826342385176031448496940926523260548333359175375517684182568388358211439%num;
  Mul 0 4%num;
  Sq 12238145766090117771484942771525541104726694775663258292451509022935327380220%num;
  Mul 0 2%num;
  Sq 9321996711400254249822224829136740554698511060536585172097647662585810325090%num;
  Sq 51005551102018884918517882281494190006158610958136510302094974841730650572928%num;
  Sq 12686819579272894434750399287844128416571990788397265029032069309378811212583%num;
  Mul 0 3%num;
  Sq 12133081581542826630215773368965033426216336706050634779866098406656179039120%num;
  Sq 21498505995291065342600117369312445615876248248957115182219148224713899550324%num;
  Sq 4063723131233562139012746858556966349840461223812055122761983294446318255131%num;
  Mul 0 0%num;
  Sq 7372908616661896405916401409714083959638818230196940387821719030644512098512%num;
  Mul 0 5%num;
  Sq 5811426261392604519654103542962088513940160969560053164758751127535891629297%num;
  Mul 0 2%num;
  Sq 16671381776410396091150436981793138436411518294906845005953955976826654493418%num;
  Mul 0 3%num;
  Sq 1137335464859154574043490950709688645220337118382112338699426040097368657023%num;
  Sq 6406189683786459489631356319563014359478691975220374303506058546176706279622%num;
  Sq 271724783810928954030100479949858272106041707653691469138210732315017886631%num;
  Sq 4052743598444484187258462666056875198061608617499945981502594198494016664054%num;
  Sq 22968584570959034763476132069184551744641569090227846295245391663056222235868%num;
  Mul 0 2%num;
  Sq 1501379559010051237770786436699598570475287687428329646055774273242818610342%num;
  Mul 0 6%num;
  Sq 48141544081064072469821490724445013315193563707912944920609893588591530930182%num;
  Mul 0 6%num;
  Sq 43207021075210416168824316236668133850826206990882346097830457639541905559832%num;
  Mul 0 6%num;
  Sq 16853410175919367617372776307177535299838974941635520344219831137621853577025%num;
  Sq 34537960559345036731142662185302609581559567628616182622820299386227409382859%num;
  Sq 2215882707492431955775421097573955762312069778731686743339311243867401881620%num;
  Sq 259046234354746582903622201150822232246240463942512932702019863375633481227%num;
  Mul 0 3%num;
  Sq 24133070516289836804728485030947565919819898089738882058318554171248407454101%num;
  Mul 0 3%num;
  Sq 168437950398451801462878909998678354076875508895878950082093456823515351532%num;
  Sq 1509441536298934089312611308937011896578081023436255138027425217384629652803%num;
  Sq 5279897415072642103035499372869317563709131768019567962025920510146622528810%num;
  Sq 42505054547592992868633729764177753165298861415542211160351562157370054037866%num;
  Mul 0 3%num;
  Sq 9214411964743076875991121693673601611850496830115648679580768293813418000428%num;
  Sq 10202869739198039121456557335938380077843700513523959283330127941541879096932%num;
  Sq 8814451471459908549349153144123504538129621490222954230634989099039473146206%num;
  Mul 0 1%num;
  Sq 5459039976104389562445681399030365290255215779816367480478237499942336967316%num;
  Sq 7071631475988656476188431159656417610991169597713506701918046716601634009000%num;
  Mul 0 5%num;
  Sq 40105047601878247013865877853481634076017978486348387686558968136717259937048%num;
  Sq 27657095882361629166742249691279426552822577471518164361609984098944877812969%num;
  Mul 0 3%num;
  Sq 9734882525290342502320422081074626688954169987337019270524201632768303487124%num;
  Mul 0 5%num;
  Sq 20944442090978181674357411983755376813007793559916518012363768750587016917808%num;
  Sq 42325336252226073837398514123186033940030414338377875508026080610351476585569%num;
  Mul 0 4%num;
  Sq 6467587815525395081404004092103409173101050308387070707280645188548287629610%num;
  Mul 0 3%num;
  Sq 184713729921120005481036651220584125012620961896087566108596627595988634878%num;
  Sq 7587393429146128431236037350831056143495942251431430648789396290391284138632%num;
  Mul 0 0%num;
  Sq 39076171182720953193310345409891586168531196185349113221495452287088781171958%num;
  Mul 0 6%num;
  Sq 14281248927622835697838085601008861020957496952618912845250059794238854472416%num;
  Mul 0 2%num;
  Sq 27513811166265966742953960398536588596499258748751831486717357626035660858872%num;
  Mul 0 0%num;
  Sq 1105285953599427209982960756742667300157249545279120396292525705941820374112%num;
  Mul 0 4%num;
  Sq 21053456884635359212684067367422081398500482793588294851309816582900893626522%num;
  Sq 14711430087276889070624057376228494106794810874440775506634895711953592865536%num;
  Sq 1602776267767348919061795898344430391002474671570826614653865862135171703322%num;
  Mul 0 2%num;
  Sq 1337265226565604157847903580315485151157351044997235759544068415137361937492%num;
  Sq 11440184571763713911845292137861774822646248155325570790784297548675123181297%num;
  Mul 0 3%num;
  Sq 22068108268984179125491921440287071639210410192494181791771328616453416953562%num;
  Sq 44833633354873558300277757442973356272191280717231912705642931843195879130432%num;
  Sq 24928495580417899336728303866144838773864073515643236452135368360258565762131%num;
  Sq 51397146607363549337994425194018797161026794740893912007407458191659785352397%num;
  Sq 696804015186136806525647843811667264476480973557813784327834925947266720277%num;
  Mul 0 1%num;
  Sq 25758528921012060384728848518191689855736146577004616056758613626323075944824%num;
  Mul 0 0%num;
  Sq 13770324980524606354892068821176502108104586408919711257463605045192018514087%num;
  Sq 35425477022758566799005122459120219148397710273126706776852183202603077122581%num;
  Sq 10698177572048985672918490294486457217703876495611447719440736042156031230046%num;
  Mul 0 4%num;
  Sq 15791845047070565981494778908206328126339843153239353436638746770814411174672%num;
  Sq 1576839425279374149347004537839004360102424611461368712866340713370601797317%num;
  Mul 0 1%num;
  Sq 1024069295203235666663795699759097422818218399496803818748468056420749360734%num;
  Mul 0 5%num;
  Sq 81740462991011483949050498642228226050212947796980858837210588811427292724%num;
  Mul 0 2%num;
  Sq 33085392268526952480217353639945126020711268319767175241799267018968864308159%num;
  Sq 9321651464024979266176069491098830144118604803636608809719446461555353331571%num;
  Sq 650585875844421820520965439603250254426820334068963257764890835066951721756%num;
  Sq 182210031828165910507625140043144700016329323275764105385406987576790557733%num;
  Sq 2006859440466390133759219966351278385754488418525347535532111415041349528577%num;
  Sq 14907609663520217658908410872031186041767252715620301019783930716613409333618%num;
  Sq 27092939515163412036706809095797311702166514103507699743516986653400650014389%num;
  Sq 17356323887971816915948313677776170536512713348933632562970069268433241343%num;
  Sq 45972833400844874062645038616988434893664586780864206736992557764489762554687%num;
  Sq 10710250594997901091011057909806410326345847806265544330765437866749003609645%num;
  Sq 18402403664296399278290402640229096656165863999995239125897750560458430919052%num;
  Sq 34733180412543259958558506101760378561784429810002206446822641526697269750485%num;
  Sq 47249368585338819467667506732854438722694210189955038240427145406773127739297%num;
  Sq 1719873881129772457039985288452779389481763591518764334221664884281472124565%num;
  Sq 50577161376369396474426520718925217590978841063580174748835312572890522960163%num;
  Sq 26745246017631543661955854721537959461910932130245448802883382596390109540319%num;
  Sq 38017920909649162499306187321785264587937078643518901084202865679430235689076%num;
  Sq 417566435425236445022248596959154449539109633411238321567317441636219711366%num;
  Sq 12344998966958109698076997844728658845615443026934856942956174600672171018092%num;
  Sq 27475366760565365170761057721789749947333568929463187226844406431379727725089%num;
  Sq 6947575479411600249797778314826236363565035957897197264899006498160674244798%num;
  Sq 43778965692084346702886716784973354202126630230284754428892451774661009580302%num;
  Sq 40472424697675829632053818605744107429218640443522752450912018925563161696109%num;
  Sq 38662646086393511858983624583522899817677099613836450481667773023142991784287%num;
  Sq 48626846644035986697874987582511158756958488719509677245687792996328233582552%num;
  Sq 29701375067052017932776481841243700888428232074168547060190221991569894454200%num;
  Sq 6407705580078383363322372624400625856550195573156204848897589361836349488800%num;
  Sq 22645006016744547051145677680200660855783109295807851528095547423792118855491%num;
  Sq 31798628453939272289376500341024213094352952723269410402634535411792221058010%num;
  Sq 43741261007128611033779459029986663245612621176578884441707489311032052385006%num;
  Sq 14092086785505516150066097849691737488649246113908719017105921420611519876338%num;
  Sq 21309139889368159184802012035935521483040355264527708351471046418340357088831%num;
  Save;
  Load 1;
  Sq 10669938383148467051137850216262673575012666437129654256253284224057659728669%num;
  Sq 9606725514518976346144162568906235797048132749625850611984359348643623017025%num;
  Sq 43443611016879961849614414665476812242159759889845800807544054609431490074838%num;
  Mul 1 13961120440718159635936513561592883204287595789101362941791660842154397786327%num;
  Sq 50673168481651370551461291773977779116246971087950475664743076027667987402500%num;
  Mul 1 20379593113524779617728706615313968769649686569050432106412629849252145178038%num;
  Sq 46421421923992401239968219672828016232017171426924079041424302613795735688065%num;
  Mul 1 21422515285603893032007881838546504106116636172575430811878667782682983531265%num;
  Sq 48493968519788564535454318808345197111446558989260865575883488601890640333834%num;
  Sq 2771617713481892429439898850188624459849630125803077154059440017637014026319%num;
  Sq 40244524233451475536980925102444393417238077898977160267221666553672910237248%num;
  Mul 1 22751555153206233130342791458645470731821161940765480282891400839565251399579%num;
  Sq 40261145548571257394831566942000513310350802376986445386902799155371440042754%num;
  Sq 4993808698682897604026322084858573653854987765345772638860704192495573949601%num;
  Mul 1 5864366761821388995254857438850309620249098318435950661539301039933698392450%num;
  Sq 19646324841203282588070711101086847925052421507714818070647047344301316017401%num;
  Mul 1 13547678759113979463713031267198586831095097531258212049039569739263642281536%num;
  Sq 17112604319593430552501186981296908779409936424762020215571095715187071028346%num;
  Mul 1 13253088170514270347597570803022928520312371752432356515160078937320280348997%num;
  Sq 17269190616565677138407009250435802247843570281044541313481320175798950287238%num;
  Sq 36595854755820131457567301604637602753682370119672302372375417400753195434939%num;
  Mul 1 4541402414786535745257548592562839848534937824401845093426026218932467482803%num;
  Sq 29952277717870031886922953252392325761823955412955338577512853669077604806%num;
  Mul 1 1535125369929726546058941851511602763903148256488612486018338777464357961295%num;
  Sq 34750396393451357901637047592857947047003966208917562326905864228055280112305%num;
  Mul 1 12009726242178404280571655188875336175498815739553323995366890708214257488333%num;
  Sq 21104418772726174100832150791828755237759611844489299489339954980179248997581%num;
  Sq 32023233749877939609499458578569789302794015530637491108326446961312271458828%num;
  Sq 209385218628010830296668708007465731794441921870086137316524461184055094354%num;
  Sq 502041625866512529243115665161397317252772298873794108936964658684100564208%num;
  Mul 1 7292893952600172000650929096493601763461568805547431018378398452954012565626%num;
  Sq 5837928313260285079812640586450749044230514105520815274039546750860566798814%num;
  Sq 18506629482819470377942990804959041960048882054288595295449435427462049510475%num;
  Mul 1 12283121396507134723098268085862696529785004846083105366611501802886433552467%num;
  Sq 3719698993814170221756239841869050607014717200544052373760131425859499517353%num;
  Sq 239205440986112394728486964536754796909189753998248733576245351936813847486%num;
  Sq 34763094683657443130248079133870236392914797635611301671021605862870300946798%num;
  Mul 1 2642840848575982289206091649275930706255463118836719425744480061019526831835%num;
  Sq 11269388817814764062248241771763705220394762217278503506554214586493213872193%num;
  Sq 3747178202248376219685005930870199395133826627230064131621250563023153429922%num;
  Sq 20183952085152100897445494082429377242273350888918822568926109666441301723849%num;
  Sq 51174459045620545205484275718779246569083542697087040490259999826349131369146%num;
  Sq 159598156016378337341798665608843212727344509658677906987739983450520163510%num;
  Mul 1 11021742232286935077787236099195158499394375097390437425764498155897023838959%num;
  Sq 47120118186637012560618964915179659309431840750088699981486807621923916463164%num;
  Mul 1 1388172856014960868573877953256645613538972206397018805485001400490889851439%num;
  Sq 42151660178491272393795074763443440100125281327898165798904416328884227589985%num;
  Sq 22739867415218694406531502470007793790466319912655830838453432908169816627700%num;
  Mul 1 8040662408245010307286637442919180020248863103582501281202784764586365573002%num;
  Sq 9099697002383128822535141778780872883505306323207246934689633903803557198828%num;
  Sq 24039223460751276553162658381017194723910621122190090594617752983586231201888%num;
  Sq 3234066759242017501306650110160333516365919191487755008117160447604563440815%num;
  Mul 1 5975786432693910055305623195543006321428186872830180221944900201564239389256%num;
  Sq 27310140833356350954078783382904597071815935721641075307463376240904423348795%num;
  Sq 32089308712594212425590812979772835913165009301404907366450738188327470842525%num;
  Mul 1 4595300927164548800038971699438103230167996435366003884897054552124579990956%num;
  Sq 16979744109083707517945742332250397666404374017168718473951115660559558021600%num;
  Sq 33181520929092881704933067169171242299814726022537701105496184602888928415661%num;
  Sq 29873218432555935824639306546689164836736504465282382071156086969930939640167%num;
  Mul 1 2038867618548964229230023321848601658475528619982504711480972684763445410912%num;
  Sq 39516007246453059634945539954707673423348789790179118314477915568545635582064%num;
  Mul 1 14781746021471462253670174949297179353519602135951035888460004660704934728512%num;
  Sq 15274968867790731859696511951210725710144527985125002076484356683658157450548%num;
  Mul 1 14808016253587610220553445706935571383264244998036277260739637072474385351583%num;
  Sq 8105777214792570575220011246122571004311988201009179467756478474143253909067%num;
  Mul 1 18170703022285569147124531919921946607577104777585133002498784400123005799613%num;
  Sq 147756763081030017472208319596531130305841477971551779224954733394588403848%num;
  Mul 1 20841167072726217267828469363879291598992815644169411312883952858218461980555%num;
  Sq 14023415811676433057716706263881829241603740608615895331946722133609478035420%num;
  Sq 50745546915967207793852938280154876935760244576067585444054220856415578610506%num;
  Mul 1 20424508163417052077699857855229779750912212334338601104511932771885973985599%num;
  Sq 4640954693386890901078473853297808564103246289635451348092052316430226007176%num;
  Sq 19422998831924363288268871752515729983528577222954813480160330315972906332378%num;
  Sq 30258556658940963034426402115082743224240747176760216727208494722542809741866%num;
  Mul 1 21248910487733158332549639267320123342501086677031705836267643219150094728786%num;
  Sq 538631431664502176236878585248081992877297680750519310434573147673071970372%num;
  Mul 1 16878181172029801290135252770417684303334099029999929522950219221770846481150%num;
  Sq 7765664895031145988980259994665720183854717560386988880846752826083182502155%num;
  Mul 1 5684358483823201559623881234458853695954664883180350986050118541080945710004%num;
  Sq 1632119381271868665152418519106984779761939680592267029336681314740615721046%num;
  Sq 5122515504328190434763675604448984486362382443014761204670124740114794647654%num;
  Mul 1 17013763924325054698066687696838310569786947367353010414282481516142394683545%num;
  Sq 9740015816155684145343089474004216527096050408423781768885828574537543732096%num;
  Mul 1 15132409538474976890000715872088456447888509733266247436347331324513791416125%num;
  Sq 97909776616534419739625671790236923615505248343535065167559258377217821594%num;
  Mul 1 16017465324409866692929070635968079821114773700894411392997443307854487985954%num;
  Sq 16819620071945098734537258237043525157320858180912947594722730039645978453623%num;
  Sq 45382144835026346163490426208596427749214553796952087068386950490615999378435%num;
  Mul 1 8884755159191415013517432276900862121490782008718148963015954719476038398442%num;
  Sq 35199295148741976153779063493281015926050563705149375421290996749397248593677%num;
  Mul 1 12727900560726352590360632775929556144165609470044909058410053096332674690835%num;
  Save;
  Load 1;
  Sq 10669938383148467051137850216262673575012666437129654256253284224057659728669%num;
  Sq 9606725514518976346144162568906235797048132749625850611984359348643623017025%num;
  Mul 1 21529994256654577906284138928861006975497384851857954394618187188099967185168%num;
  Sq 749069958817565722407164048410378991593214254478246034241529979300880423555%num;
  Mul 1 11897837357762376028535893375447885078912406855195920301402890770577292139222%num;
  Sq 33161873710823634563307596392249253681158551296571273581091556082712760516934%num;
  Mul 1 3137238947540265680049169825716549114175568507028617010182956424770611586515%num;
  Sq 13777899265516945823482370714147726516019355961328883975256197698925445218759%num;
  Sq 30563856833754526589971203804237829566998883759536980615490992769390834949062%num;
  Mul 1 8582174493301615838678892539242630456762329456462029746136904693771305693884%num;
  Sq 11734178753047460490000857319535385360872636170819303587039742177577976158503%num;
  Sq 31275369026419039650165562095992068862423307811018538716385396769333509377276%num;
  Sq 6298497023821094499737508374276754765504959009386380307845343913815914914642%num;
  Mul 1 10043527564217936830899362819737013696816089681797232704366763316164064171850%num;
  Sq 10735565465345579452249724006082329587138069360874895906762129540563473154899%num;
  Mul 1 2926169360616774308450640521217314528179521061495848410946679470328233805217%num;
  Sq 6229541031750946876007600739942904965391380706384308202958606007065035569448%num;
  Mul 1 21363678134785807540701127492702952364241959243120351106483451335635873823420%num;
  Sq 15637073417888502404288945725947491077453842781689490601605646264708126044284%num;
  Mul 1 12411481889677224833692844173123632624683417593937994858250551052198704221876%num;
  Sq 25530382209577042475644775287069355912915784394552620918484922604772872246843%num;
  Mul 1 16162328141639041692692803191102867774958732537349322037012924394590174373613%num;
  Sq 5347056898865142713918884777790404356138904622602309250226098450712287469101%num;
  Mul 1 9172555176607716385479680055261245359310242955668480154672581438158457562900%num;
  Sq 11754372291245041730262181972500651357545654193373379853863228422812855727608%num;
  Sq 30032439923907344155295823082943085216358436271606541838523025346496307585869%num;
  Sq 15756033991138500965957007314071865855558448415833661725207856588182003820881%num;
  Mul 1 6612433940423959346490247450153473590088894900334663438000337636711630857217%num;
  Sq 15292253820558381856706583509119134474686909120235591123879400077076990284929%num;
  Mul 1 15521703802555444415361186404316984763864581763572306444363777404953525399030%num;
  Sq 20291738279280657475432906591846947669436907716078454742908070671915771611398%num;
  Sq 218368027627530301123269288835503543133342497762332349556422788883985927818%num;
  Mul 1 18296813041955462515660614208768398528251938094093138316530138570803650384522%num;
  Sq 21363799609706610258856868939383835542438608992580303700520426874252775994348%num;
  Mul 1 16290599944593511824540461525337808297210340763929902928098408535686819706244%num;
  Sq 15165876846560084082201439328699764784602835893557023860176814915304570075191%num;
  Mul 1 6540384162391734240655774759770347412889316880668501664526274539059964268115%num;
  Sq 19270636035783281982373886608810712438037320900950546463797127213163115501860%num;
  Mul 1 5143467088149194407431189771302681676430377236652518121578410474999882529976%num;
  Sq 46337378796749665524921533117814929880497323848161822744808944242349378332998%num;
  Sq 5880241457298218165900815196198104232107629395448400553004323507743953139450%num;
  Mul 1 20583241664159488139121698507597090838813989450580103690811088967123469471507%num;
  Sq 32969818766983827480431507273369062259834424587825072807865591700470423694984%num;
  Mul 1 12472084083207043962960794515924765593267959959234517845623879473080846573485%num;
  Sq 4810751114633152738130133209797740281873238426533502298137525015409250713385%num;
  Mul 1 1590183005885385070334506713033590447900403737976552118148001281361942675189%num;
  Sq 32829379029220497988954062834268767688566008633306026660530608271400662456022%num;
  Sq 23778990350496541728075039331874523899943428828966194899204010318224519045479%num;
  Mul 1 1984391806467711206416306238567570617693498492849669175421702561859611691110%num;
  Sq 37949548751822889358674129074155240708951716178417177743235811571058008949592%num;
  Sq 38323798815432817174337003554504247847267960028049135032843754079736695686408%num;
  Mul 1 9775494224937681718682469469708700012604271592214477722845338389719507832871%num;
  Sq 21700112722863092522348695402560528038883734313545354096122006453980313365905%num;
  Mul 1 4685149844395359776237188530396419770405532638571089174605562083287404781224%num;
  Sq 40426852338960005028483384482945152181766857257973340547037261006095597802112%num;
  Mul 1 672941814567063434864873555904042370606636351810943030764811631798833833425%num;
  Sq 2959231098350726185765472022200345540105455646890766820999690103781453335738%num;
  Sq 14766197625444229130919869149417863606483006765891539477247772176060831281055%num;
  Mul 1 21476053591263785364558056762497617704836701026935170541522448251296122457783%num;
  Sq 5776685277005192576245459467415547795570496119692713211387966002075521787808%num;
  Sq 8957436589694763818389672243973999566058587560989903833620956973373948959811%num;
  Mul 1 11837183204748292364148171613895551962477571877849472316078328001290509911775%num;
  Sq 39172595221984950599974241399422338605880770877917721188283391939066102131388%num;
  Sq 9577220934282942471544430279098096347348495705057304377439706184078433449201%num;
  Mul 1 2914371485678456688531070988762454223289474476247492745798496095951770320674%num;
  Sq 5145039822629746912995486177905225013877426060017664203855560570320858164465%num;
  Sq 24262770449533628469220084560826491331474352444763638951356727740676799332882%num;
  Sq 3750896871255088579421922205424580251800780160780449484808587699755668241654%num;
  Sq 40633703615303363824230360873507515796842808363345651832309210159531220094432%num;
  Sq 3676096429918570698071945234415778661123403769262612883801698721855335986150%num;
  Sq 10813183742882123769421017106384132353396601267491184897257808140548389495266%num;
  Sq 145644606645649715264610153293974855096001263247397139218592177917513016351%num;
  Sq 17573261264066415289415067225381269198013386764698197008355332043747762041048%num;
  Sq 40173111768441038760284702180194034593080368025623660919460089289362031881707%num;
  Sq 3663036088686973799997523065070172674183084433446130818255932392996655198159%num;
  Sq 54257700309978254643142913572419943472430650795392027209233934528206049040%num;
  Sq 10635405406142594951236630447913234058427889703597757433544088531733126309039%num;
  Sq 12889163068317100126788188082850859053393451139496184764373924827431689454840%num;
  Sq 3255683246326329935426446610329598598200502822201997663324567790273019870817%num;
  Sq 27500021950862640886372686954530115039433161220089893144925802632791250426358%num;
  Sq 5397827866083807391532612694490297689055206970826308834728746001499620620368%num;
  Sq 26238127721454007433738476574082857104145648516303638207211927915072863505290%num;
  Sq 25301240139138185921039926816121553284992635454470691020772029274175192254%num;
  Sq 13875416575036700557927795392662530903179155224282460621719241378409225237696%num;
  Sq 12213696367810735156423155339016583758314118804718480859683036135107449127785%num;
  Sq 28520201989336430790034879423340921863702605091314814740903623732797946022518%num;
  Sq 1739582601342203588072000157978303167796781224276744420808543887380961004802%num;
  Sq 7678259467244242945799794700318196222242973746395631123425902120806006100589%num;
  Sq 2201403784977264240180766923304842154533588632100174240897835028545692791844%num;
  Sq 25615950693002682975546943106687907640308472196968617848782901739141011008048%num;
  Sq 3926056191344286743106493280828512002788420793377475916537804782947476225656%num;
  Sq 620278852218952005492032998457762648906314478782801221812299381835090743401%num;
  Sq 35739196121982668083691360096995530430126932504152908708238694584232713706698%num;
  Sq 24673662691216116100486133669719759216422673971193885820344890495431205679599%num;
  Sq 32657111085409514905882307879950851262919446966245104246477757490502053874071%num;
  Sq 3952297959224165137023064948868608193295167834790837974768951403886034156295%num;
  Sq 29011127124303881186021842752275574110453633940032723961707115147585467668522%num;
  Save;
  Load 3;
  Sq 2287599222733576532891614376155695167899041700456119651513606307485453890701%num;
  Mul 3 9346252881592379363559318390390123013461173140142359573514533057472297650100%num;
  Sq 13338841252795950135216309755551414907047452613043414722542339701842424276384%num;
  Mul 3 4933874064894746246080028096555211463611122108403029558208173694345740343968%num;
  Sq 16515269206846361858489643555955338625872162992661446807860057985825400391405%num;
  Mul 3 1564926311609097944410125305374106188322914921859546650825856814434087911052%num;
  Sq 972957043891001160436409832069291821988331668045464334397918725996480684953%num;
  Mul 3 672966346879306589670200356234855384868208029467167135227099029677476783789%num;
  Sq 10007062664009848714278302200774006307563502865330161787183569334276716340%num;
  Sq 19873941039131897357421341498395949505184581496486428598864375136319584996900%num;
  Sq 1995393960405085046177780297296061738195371903622691622116754582299724199669%num;
  Sq 20649678555300873907798452841124513929268920204615605691257330089153206378588%num;
  Mul 3 6529627647399477266820240007007085873097145607272040559805943106511914886782%num;
  Sq 51893194550194319059018026392647592227623202876488487102150446379888948299819%num;
  Sq 11190287130316685913633949304557386058546175485569254400783381051897233415682%num;
  Mul 3 10459922401234181046052466499891503898047792003090182447405614530240748441412%num;
  Sq 1712531626410851982044914673391177849751194843423419365336993231074598121545%num;
  Sq 44593356512586748611289958523185962642927041794657912606407432156497160470614%num;
  Mul 3 7994912544939030852821969402211193947742605867884568323167194735591308052517%num;
  Sq 11666787850272783050888852878188968907703309273759765030289235540058791988070%num;
  Sq 4915741426944267713569743261007674756831835355064100710728096637053322049911%num;
  Sq 1484184344815150835398912300950234482220696123526769056376307252065062048568%num;
  Sq 6987225323175799763895767066889026146055974512427961962875562051316437949612%num;
  Mul 3 3744840248381888166667734223659348869819380060419494879736942597372705451172%num;
  Sq 7190310040659260788303552057882389936707780329635232624410180269549051894117%num;
  Sq 37123319991471956950375846192317897465432792775595360713900603544342331301129%num;
  Sq 50949147295789069777479591445708160264697759609612667786307059090237075542635%num;
  Mul 3 7670475940686957568886700628515962551724556596596879266810610433433506807896%num;
  Sq 25436998228330843696989944446344600428564943832900534355860439671392650692739%num;
  Sq 6148747330319252108358093683669011812101504198342938454081520432178134509327%num;
  Mul 3 2336340218929858944027012831830177285503608938488076687240043027274819582880%num;
  Sq 9833623900470689493150423678607991325873112311225488542923787422115311482552%num;
  Sq 22925309275272269566935538507232787971803729517683122223562085490297025265959%num;
  Sq 18942743138550398604473598852638151281990905752243396255849015915387111696238%num;
  Mul 3 8763788199145644820067401429136157004370545381446996036460291130423803697416%num;
  Sq 44882104226329922426056778552843989023472679217227575124474682163493870626650%num;
  Sq 45709156348945259366247680775039812666388308551773440592389546111713854561432%num;
  Sq 18551396811761033299767557715952243823782932275899824035781543896428752079592%num;
  Mul 3 2803591576167356756654954357819886523022305187449694185350648110079208864498%num;
  Sq 15515058911327804183430734283494354637334473262989026994952988789825080744877%num;
  Mul 3 7193121865921195921487189387031687001475611033560700538373231760819195597610%num;
  Sq 1835983635203873079537720368105705748146680005597464140916659466346250509155%num;
  Mul 3 44642800407510463812430398359153949084400722159592838316450874347914357256%num;
  Sq 17703244003628366929169382235880224429243963872596705551684701977801436861661%num;
  Sq 37208803744166434056205072027852659609157644471591130642121454592189029338869%num;
  Mul 3 1742473227137284037696573724189296554961350987755523632130862444882000171940%num;
  Sq 2143403446544980512892349333800518416813579358576832701217884631685031571828%num;
  Sq 35834711201935316033630332946494560829991741613276670122296090148847736194474%num;
  Sq 14998156581187651329389508804030208739144264459140016609765240956049420289926%num;
  Sq 11681208921349982564510155210395675313833560677795997145756694225773288213889%num;
  Mul 3 1664210882755461585920923640516510478043761896804360785317058938787315711454%num;
  Sq 9219552451650639592360975761174607076117788267871136341744329998136569401523%num;
  Mul 3 7202445089770584673332407567216711386577915330085140678801833463393044881688%num;
  Sq 39557592747623972343630148887212604434329864361012194911883950254941071456903%num;
  Mul 3 4568260952566261978866103969852699032422791717930228732018516754094262858374%num;
  Save;
  Load 3;
  Sq 2287599222733576532891614376155695167899041700456119651513606307485453890701%num;
  Mul 3 9346252881592379363559318390390123013461173140142359573514533057472297650100%num;
  Sq 13338841252795950135216309755551414907047452613043414722542339701842424276384%num;
  Sq 10641336579557016433636314877775364576519605436367994719125895565591557058964%num;
  Sq 3222177291948702002830345613529327864645873204654372136243715361862627417935%num;
  Sq 4152676411052548807125247549967437462297072609290850479367148699698772339949%num;
  Sq 27916485344478109196745264622224505428745713783768926811579871511064857534206%num;
  Sq 24801672241765965235153385865906449729076708300396017729289625388246532936265%num;
  Sq 4235265645418571001640458002507536723886021516569278056978487742916404913019%num;
  Sq 1769172895610452859457720520763463508302152380998708597047462203736207571215%num;
  Sq 26491239923070475597437822483739035917772331762944192122619873997640816952569%num;
  Sq 29165154506902126450268699500644748249513099701974970474975424915292762522233%num;
  Sq 318427048460697297385985285564513391231908268752287953562010106421708647299%num;
  Sq 5573206777550332100295388509466944765996374801170156203508759671441335624942%num;
  Sq 44783709537572440213426354722293222599134228618996057606231323751228373124%num;
  Sq 34389825733957565327082079088601108299509671909609705750460414265440237780458%num;
  Sq 15768537891004960975626414075626843208323201510199241801123947618440497634480%num;
  Sq 7016966353379528282005719520843026879210954951254447943226039878870073595257%num;
  Sq 49753032292758435456678645006383346338708059471173587313544491734495286659998%num;
  Sq 5217181712738666408662887463330388442467391358070793956287696965121314848498%num;
  Sq 36096161639497424978941443396875940684216323781374511377535571709094043682358%num;
  Sq 16159101436663139117075838841940456990547812083909314142567143857887086581350%num;
  Sq 3838224429331368287596685380868012217842927241946322460348070140255414976708%num;
  Sq 362781929766212571005824269795603292694944655606365212066367710884203414713%num;
  Sq 23790922395722133671025623395845449704262356372559768135760157323525566439016%num;
  Sq 10689175398245432107768113889944628033195045554423521005822435779273917293944%num;
  Sq 8132625314879756998825664092421593319735568178073679426310674902452949976627%num;
  Sq 34704643267151942193008541735912349256378404882308326236913204777624833094204%num;
  Sq 20851340176822821284587003484638210466964457953322148653353513378061590022202%num;
  Sq 13485589730171489331743203405876395290109066250684571167196218747324005309220%num;
  Sq 17935482943628029511850213556413350511777883352095922714273745460554776607687%num;
  Sq 54665885241277650031492421023890300416405611105465216894618504836392535211%num;
  Sq 34687835316103792819313979136210855244023989229372715521462916994604707096243%num;
  Sq 18485479096397417008149289810749683374630599992609094845762176272921501912349%num;
  Save;
  Load 5;
  Sq 14099066741231941447242444032241136561599789631910766770998674245818174211965%num;
  Mul 5 4696916984379815959997261841447466334082982288403225481356929463221170895905%num;
  Save;
  Load 5;
  Sq 14099066741231941447242444032241136561599789631910766770998674245818174211965%num;
  Sq 1564715563310252574006033751153958599254100554357012038632797002517096792500%num;
  Sq 25938166453788332773885693532919055021225875382343176612396901095984476606859%num;
  Sq 50805035970471293607521727897062150206521613330742622029896017809886113125548%num;
  Sq 18283078316519429335411829651711691047295677890840962102783800128293952571450%num;
  Sq 28245205335836739236157064178357701599168872863465665653427963145396728977318%num;
  Sq 38092232716598146582928770841690244625288042795584472069704029110536137711%num;
  Sq 15425577959322820350536061031036830119381038657988042751482984547515474436669%num;
  Sq 32580686453439436499861119595350981151951085416352015388565008484371609854211%num;
  Sq 32219824613215075269777469297850771091191304866694636131574693978831604316389%num;
  Sq 27166351083618746587504700990886345436800015076208562824296007556408392864205%num;
  Sq 404902417081271446431975931525730335524913230344515292417819587079758651585%num;
  Sq 93397972265514404891331486560304664150799338320397793717383682484317204636%num;
  Sq 8299605596121448195879203217319128399871317377120651383116011904393214505685%num;
  Sq 2253284118476105574176407061792874871178415036937945615360142778512137319779%num;
  Sq 74593812652655158032860563989604653323841140919967006837019213017580703933%num;
  Sq 10806573072577646327752697074561760918752512337135211274536001375411433116423%num;
  Sq 163760863060325678362060020571005550238608778194508046458185958112399254722%num;
  Sq 32804765433127780058221995315935489028743558414820319918579493855610328505935%num;
  Sq 18174983365258723462602766214158778343234261894717881575545113043053015639644%num;
  Sq 49644536832663001157038646384806169691813091143657435029022967273867200844869%num;
  Sq 51785582379463435201774651541860831822434857386584016705717093779994193528318%num;
  Sq 1621065719184971043766554856655956006774718573708912966905438404902363448449%num;
  Sq 21893974986087236710569000237051661111176817606695103859273891770512692541972%num;
  Sq 118912986924957883390759158370104224984884192014039249123253096450873651585%num;
  Sq 4022746808510197951930763433770744820678294662626810605676547398668854279168%num;
  Sq 44477164470414513997835371839482326028683245938152251249594793753833722130986%num;
  Sq 71648634801918202622908276320182565044866121535890615512666969372391268338%num;
  Sq 334214402319614923702211573554827512159518318916409702952287062332910717788%num;
  Sq 275193587437353283751322681563821050227824640227710215826707879383287208921%num;
  Sq 0%num;
  Sq 1%num;
  Save;
  Load 7;
  Sq 1999037854878584061859095318596813587156137983601477440199984501868360866810%num;
  Sq 22138007655164235914936248628922642736555220861189560372994334027390334541867%num;
  Sq 7700923799935079611851968379423458973867395981278492453720760567212963231689%num;
  Sq 611127192570159113481224239827055420264661300226572948296040534025811318864%num;
  Sq 26790747835879773166057590551035311936174714957676009866271149264086550540132%num;
  Sq 4841051003682948443550061625669759918674401131011351450929904825252569338855%num;
  Sq 393363064421451999399385094226024809705905383518968740798956187622940991718%num;
  Sq 10297827204239832326563091577768312573785659251723934714267744778636376040%num;
  Sq 6594937031320677429426648028937915953712091880433267689467620196907330947170%num;
  Sq 51901378819862401466244632268085255339781881969625407329084111474059852450529%num;
  Sq 450366431113801173611814718257983503191319425918503130557571298975614892047%num;
  Sq 20105036898914021286159760390279337821151393655333343373163375151889794924505%num;
  Sq 58795185255930025438735887332421529447431437630296195048966566166580307548%num;
  Sq 26270625361766621159616984964205542283657867528872536026759214350607932317006%num;
  Sq 7967303673272951897130852229983196343839662640180429284010162959920125796105%num;
  Sq 4579378861712844296001801815294848970190381958840232212712866255551125530707%num;
  Sq 4335058894698712691340064495220856438674661451508848436211466216197618100603%num;
  Sq 9976714137850890563205274572188285238279056392279547395875465313585119037795%num;
  Sq 29114864940489541460883177064809289574735398339600002721295325613918887784026%num;
  Sq 20431520816442430931035927235261387184316552112659923022821925333929494316139%num;
  Sq 29056346993850996498408613211046595192243508027277179240039304581442059905599%num;
  Sq 46365984370699199490387537932779246691790987783203796165207256631841590439557%num;
  Sq 9897492814699666225703588144736490092861041638969691344979563153664421763138%num;
  Sq 338759681680566094384661421608725582014079238341167629848615681613431472761%num;
  Sq 24725546030893419283650058338437031747284857013340151260074394014359783700027%num;
  Sq 42683788624559304820678447170489061067855387984546907739320709598449179462321%num;
  Sq 18946512905414557504371570029177993596326186137134313470805608426261485096859%num;
  Sq 25521227035651289821428581224593977611479455108593087890288738081119609700086%num;
  Sq 4170616673570918327606325064043322261829970076819436991364757318224184538698%num;
  Sq 10689077936822400752933022887068862718368496949774884062459812111304843150884%num;
  Sq 228988810152649578064853576960394133504%num;
  Save;
  Load 8;
  Save;
  Load 6;
  Sq 43863189203372922096132840866683911737507437869162325676610532522163863341120%num;
  Mul 6 8879084680011495900452872368281261130543102989058054784257858017177696928455%num;
  Sq 9230727428199584289878885002141725584310297878157607545473449395527109174919%num;
  Mul 6 10670720356548143577105993993760714583782855789459223597339661838342459236343%num;
  Sq 988059292867630284922369725025727218847982864324197003188222385159661220198%num;
  Mul 6 38490440199145250442461303134360397216045005993667309312413289800205035012088%num;
  Sq 15382021537898804914048465152353246144599517243660280256776956574714349201%num;
  Sq 29545784940798118665393893534776327060245624182014838952514539005515790827576%num;
  Mul 6 17048400814841915442356153291605790025837964657929751320167146347575933849400%num;
  Sq 2146417904352183864058714223902768158500361112860666564776887234050381662010%num;
  Sq 803107697125204244661148209894040116826105427762620144149621878398191172999%num;
  Mul 6 40073301333469435355091068910150776926036649662002085601059519349361324266895%num;
  Sq 26756651357331860262617209765494497033379162071766398845647588795952839001277%num;
  Sq 32285817897947528274243422777884884091990873388686308925742600182034662309912%num;
  Sq 32337391930362972821214196576922013142665705541189348530158616450504967722636%num;
  Mul 6 4673958627879275029077653574205851546123619643441175800122651287979716442171%num;
  Sq 147381216777335926760417669702158811522873922520193933917305505726838030393%num;
  Sq 37366302398144286918970414472308852646866425250118352389359346232488883271111%num;
  Mul 6 36603063156404716042301787689359925423096099816692016240719155746458331882227%num;
  Sq 8828216624191608515840934677084931767040158002206620603945858886620673413786%num;
  Sq 9582267213260465150736492803888973270614600785556527053820045794569230900667%num;
  Mul 6 19428548095303320148955788081895977313576940993947943191038578922502434901614%num;
  Sq 13774030254408908821445642794553158245877263793063179028516060757763817143755%num;
  Mul 6 11684496864519600501121055334640328341918799824743980341315546646254192820216%num;
  Sq 3253374869400477828277894246909339982040105343705665426034385625054735680484%num;
  Mul 6 2425796870955860552978617891043930206278248660073604192192218228918715159093%num;
  Save;
  Load 6;
  Sq 43863189203372922096132840866683911737507437869162325676610532522163863341120%num;
  Sq 1797364628214322311016004831419770209981406948631555678381276632040119696297%num;
  Sq 5328673870714859775448573538007518551569477772115215894829181444750577714796%num;
  Sq 21160251037684624871054912479167997798031666992432176231744828484012015758393%num;
  Sq 16647015154542453563984267519668789972731250647931199493132083639237105207563%num;
  Sq 19736341615903107140244310465824028834950774642434874744751372616720588239843%num;
  Sq 8814508418391898428174417679600293681870541639946792226392850147611865138049%num;
  Mul 6 45700888782517884021118725370342278011807244149048439983780570959926522378800%num;
  Sq 36276472488257007633910778480008381899235829797412948945886131655099243235503%num;
  Mul 6 29978201658563779750912873802605183178986732633803637476323263582968885044050%num;
  Sq 44424479726119970571399049393917514771600603017490262633819097431624099918280%num;
  Mul 6 34365591538111970522731326464364808549097869091703677329830756876347497435641%num;
  Sq 47480590182284005130544492422255861395172383658858780616944505372924012689630%num;
  Sq 9470916120531578824209396550550894766754547259112093857327759347287271408738%num;
  Mul 6 38152103342008908747304057582621206397096972572289029892422958023936885253778%num;
  Sq 27409726703570959183266972288669699462826099249659860679371185176111112918038%num;
  Sq 11063828573237730714771131817869832047666596827239678586871793860205599014786%num;
  Sq 7255368481855019938739538981824955003434851733332586468647200157548363386934%num;
  Mul 6 22138434333723902793222446746883430938762858249201294617148552433140531480148%num;
  Sq 10863351917464209611264940612383806744600666718252082580430736795259407500826%num;
  Sq 2825054292330907758433628536555932023825847782853587583778277293571317721138%num;
  Sq 16863825788076452863478562078525030962092132301480521023547728634068451006710%num;
  Mul 6 46581741930939533494945243802611936237319664088445653419978179828942454106507%num;
  Sq 23298862855986695351768901467643847445065232958953856710190129449857192185711%num;
  Sq 30176824981359999682220904059895210604684396790711820794064165793435492885501%num;
  Sq 700395745375736713416430426583265898246908634150489533370131305861937941390%num;
  Sq 8995033426551947411801469150467741351457418549997357707905731764399248528954%num;
  Mul 6 2334146531867250920249105133643460959422058906994634324084032615172425513146%num;
  Save;
  Load 11;
  Sq 1195219105514722397988783677980464472775046526696060107655912149138004788293%num;
  Sq 378424486706681875233455221889171808509170123267952355786310227147989073474%num;
  Sq 34063393290317847766170354717158407436066836591306031971345549718963360261382%num;
  Mul 11 1870412214911660097977284977617585562175532518224989587735947050382840435090%num;
  Sq 6149119709626543673936987591844023153643991464184754063919742502795681869084%num;
  Mul 11 1434634211212531907464825644787635699676322746660621262608136144996281778071%num;
  Sq 19494869700056513735654560795206101466189679453100612064498465048819030749416%num;
  Mul 11 2099390971178090068154712742164115689552819812671875739599537588343491494268%num;
  Sq 47638810293258754871897365581545303447662026112601653609153573537766972480779%num;
  Mul 11 1496595188263379403703539984391459952659557035614823657900163979247476802902%num;
  Sq 5598620310485521633431422825634764936996851827150278658710518895479471191535%num;
  Mul 11 2578523312361080515883224055211167503854768167793261622350160197488887060726%num;
  Sq 46772146482160685719706358656677603259911071906099465056210381443594093477563%num;
  Sq 11168232728045212742746235746864075324655960645500602192516688838882223000689%num;
  Sq 24672997201875425868356466504313723471062518743306623491677396182051407668306%num;
  Sq 5106318814572234472970181190748679311570648494431156701994510879983166413132%num;
  Sq 1701900199774599209244058879021476787659623249418204972350306761524401811291%num;
  Sq 37694800216430896376271461979850667335795484253654051192495013155812553353522%num;
  Mul 11 7194289314904987293393949196105171554097036632123636052978456007616185600231%num;
  Save;
  Load 11;
  Sq 1195219105514722397988783677980464472775046526696060107655912149138004788293%num;
  Mul 11 672532658319600318643147244179978827535257383254296541580342488578354855358%num;
  Sq 29262260829226440502205604328512980017928588314318601736742109468403247265560%num;
  Sq 6381524231776465382978034394029739226908043790087529472451101346836616428400%num;
  Mul 11 1800482307423743700562817060874886333698097570127774887850633252175693712065%num;
  Sq 41115443210471113058320718312742743290429571259656565424149639103600649572830%num;
  Sq 6118788899475722295127952299687403431618936664681751617785936356813074951985%num;
  Sq 24666359154292572744299253882487612508386879582749318609768851441639844449681%num;
  Sq 50246232603556972299843780544923291507828704901532756934117341467219160619317%num;
  Mul 11 3044572118419731693864369292435757826678237307382610805685300339958681610347%num;
  Save;
  Load 13;
  Sq 26478979013347157900814135274837323965054716372505175541281063660757506950715%num;
  Sq 3275664472560365632237342595945178984003799013978672317572067701329735032006%num;
  Sq 25876057107532025675549965839509223763317694103616495557891284248046330965384%num;
  Mul 13 36021263263912614883766705237676631926197058325228341300200095494161946625589%num;
  Sq 27615973903975425760459259223937707325479681078273619597462750286242853187924%num;
  Mul 13 10339780813950348695186573843313303169826456539921057071768548208126465612793%num;
  Save;
  Load 13;
  Sq 26478979013347157900814135274837323965054716372505175541281063660757506950715%num;
  Sq 3275664472560365632237342595945178984003799013978672317572067701329735032006%num;
  Mul 13 26175782186947404948698953458689765073526281294123866277980734215055808377494%num;
  Sq 28179326054658674855538589601801271839690508289667573675292936597145750561842%num;
  Mul 13 34466243289600152245679287799541864597189701459337017457061021133653246792404%num;
  Save;
  Load 15;
  Save;
  Load 16;
  Save;
  Load 14;
  Save;
  Load 12;
  Save;
  Load 4;
  Sq 5313966401180233614827944641503762396625463448861604698649578809236194573892%num;
  Sq 513397728019403633429426379035715350306459087727792771903427000856504007%num;
  Mul 4 10875880924547655853578210227771213261888468842798686916976529220435116170841%num;
  Sq 1737784877667605793619965801476099795171789687527970208977110419707108209148%num;
  Mul 4 16318218584246981929869130503886639299096585564672605291677819750318332986850%num;
  Sq 3542379800897839670374292272564868207304862834121647603313124060842406289768%num;
  Mul 4 12180856961969288971619595704764442550249394628633341104284436744067066518489%num;
  Sq 19885419931032503244309760401097295607867274712168277872414665321898351746819%num;
  Mul 4 2341367650208536989978755607222682953314952768743747839082754686085868935654%num;
  Sq 47509577120327857588173394245060258651748800753395296985731700852356355223182%num;
  Mul 4 14137792228418537744495760565406033752539827612618961131989107950219986181306%num;
  Sq 3481014973257746570453313449565782027101940116064984679691157326896216308545%num;
  Mul 4 8329237891435690144140521529936086733576472850290302005819788340548162251016%num;
  Sq 3889529308070865812746475980445504894011449703087456714938429274466729870313%num;
  Sq 1480251130176199733959311126219227816140417397466670795486587996609833242961%num;
  Mul 4 15387045472743867357081224046729262167869264434047336120321598502684673899907%num;
  Sq 12352744551480136715841441481468232363352211530331008701669184852220021950087%num;
  Sq 11161731099441142579202511153768922218507563723600752817891448385288596273782%num;
  Sq 30705710623195014978847871857092444193870209189197690091648959793186447330014%num;
  Sq 39830598523194461954396525150611320461369273812296864376198117624736590024583%num;
  Sq 13885887863478125724535788481440862189072139728024112005199913938173915609133%num;
  Mul 4 13613253412984094810265746499442771057858698138268828077689809861846627239861%num;
  Sq 7425929237374634317419531212135476692394254551741220176498384540971469632412%num;
  Mul 4 8589688337030665052841597675378586495729454844885163044695538226159731347799%num;
  Sq 4148931292158342673592206540338473111629232462005504439410674628670099919264%num;
  Sq 10303764531942011674199649524405656369563025672842209962238478435689745074690%num;
  Mul 4 4082021859576020818184005596520797558495580257614597385879654521508871264536%num;
  Sq 19132350310116399030074652657212930107680725581723601592049280563983065520545%num;
  Sq 180780146674957430970978108743883908479561804305371194129749121041502964229%num;
  Mul 4 2064715510550641282034387788355691690427494919142231642969707113796617139482%num;
  Sq 912808433008203856088915093805192226653973466803554032141175171996602963507%num;
  Sq 23655098590627037171870315159788474756507825518457414891048417676706971420804%num;
  Mul 4 7152180052564904346412227841186499919541775051622887029847915986787553506210%num;
  Sq 11911713350706422147397530314148889011693827976615363100909026044417074887259%num;
  Mul 4 6860367852901841077056296148332778246324713211313773484642023012215074178370%num;
  Sq 24342410962834157446900383515531054803922778927631408409417640135629761767358%num;
  Sq 7604682658111133723252627602304263343785501345599993000518484686155340385939%num;
  Mul 4 4573081171486109253758444068214172911273771771819564941701513006761257153914%num;
  Sq 35445043764232253160994538977064236589487697624713680797226177562353978340615%num;
  Sq 4034082633060324934109679615118727714453338008633625415437336084697757344941%num;
  Mul 4 1831841050498953232096827338391323633979020157328745593367237597995527969034%num;
  Sq 41043908274814397624167714120356506182210098484052291116575468263610155741461%num;
  Mul 4 3834649176445665700918553805946015854251680248181006898165263654363401369790%num;
  Sq 3595081334550473630298803382844141887708977766391055414693094774357767217274%num;
  Sq 199093044420242674997390148262288240974708885461642188171357498139226188269%num;
  Mul 4 1384680749833561146781001091850598310090489839091262246515202057033762038200%num;
  Sq 47977537688864104139930238011263490240049328130229208012862802119080925827880%num;
  Mul 4 1607923254474553560809306910487645075377367894695756840019788758898462699215%num;
  Sq 31085885968475304478804727578392896068549931183214527654496509331747394034854%num;
  Sq 934521597071182621720929655772255838185667932962894294241421784471256894200%num;
  Sq 1014634345767704313392876416997169663487689910164338545918834269624063005732%num;
  Mul 4 15513016930119033853489196223528714507210182756716505093627482704294443827956%num;
  Sq 45275995371209074268129421001706559596677299069142929948497003325657938668932%num;
  Mul 4 11783017739737895356532234540007943067414035315290273180401281889852360285952%num;
  Sq 31432734113184322300302028062081866569234960206189159741124641297987336475901%num;
  Sq 14049913423994193085760081019470961949745307463730526568006843569174305785229%num;
  Mul 4 10236180717136219702224131530833844949517861552051583813670282723746126542542%num;
  Sq 5357644911410160060091344225629701235250894725273359813133173882558097052917%num;
  Sq 17471040889523230014180332176104360456658583457929384495529656879601579782297%num;
  Sq 12154279704208165311343453534664819489652075376575414605973102199938157060063%num;
  Mul 4 8843153287020057866315799694037263443263733360069487772929288587266565913842%num;
  Save;
  Load 4;
  Sq 5313966401180233614827944641503762396625463448861604698649578809236194573892%num;
  Mul 4 52231966047023145847654930453322808154589133230004470528158600400578740052%num;
  Sq 27906514423148515545077108882527861031838664048932623226902995656862172675275%num;
  Sq 636189127894533585195165272589315295415370539040204033874991445315696726027%num;
  Mul 4 16478892956923432482112978465629530086564993548901052140405558811552618467022%num;
  Sq 6039272680691318957888728237590786901754239511971919248037934899309888976733%num;
  Sq 48676133275429064067378116615379901695520206553381164242926319107252471044222%num;
  Sq 6451135573287564795744527460580775010807413891516677238155639186185567462513%num;
  Sq 16356030123226187272127575306099622884175920751299668485860132397832808308327%num;
  Mul 4 10314007784163080977095863728525443243089824123668173197448889585814989676478%num;
  Sq 32116608077789051602193983639932550879611158074146196577327546586166952565284%num;
  Mul 4 8772485587220242291079839884406503556091804688167877051652017961032887678911%num;
  Sq 15095140990760203905913139820380834104523736391023669692323758073696054884585%num;
  Mul 4 380226975940637918545128677089568334914818969412246634366446526643965364743%num;
  Sq 38243710838072033117391569243006517660709415905904784550326284819759401460351%num;
  Sq 200747842222596254849866146290782787906525967854685651606131492697722812615%num;
  Sq 25318548284906682309182935824800585912950960560587589305769725107251003609056%num;
  Mul 4 10973690597731353431208542133035616461931490403652063317918342366452782046830%num;
  Sq 4263100187064558804183813104464790507776435110705794914937474552137377541745%num;
  Sq 28118604253785301265277381057145215194729550230244524065995744048069195381474%num;
  Sq 2367289217334712134658597671001272792978404168340976325270187472557415956126%num;
  Sq 22768796075469181902337235195442660953400962471043157342886344156704288339018%num;
  Sq 9684444779468012140423334067985913544974050865443021127696002786567207378675%num;
  Sq 28295768741696747887980235498328558818762027308468036252664382877598033801094%num;
  Mul 4 16158137914967313106501834341702341104084659801074044168365224206144700012268%num;
  Sq 27693710251927955868486114503919862774734457783596069674299429198058693578316%num;
  Mul 4 759276176656521116495921493156315616182961928330275557256070391325763506537%num;
  Save;
  Load 21;
  Save;
  Load 22;
  Sq 6243125846364297026748330641831240523449758376583460000330521539760663843451%num;
  Mul 22 14939801494826773854232853691653360366273455849682786683421453251937817385400%num;
  Sq 33314845958259417093563463825316625310611485645494495641778614229764604537438%num;
  Sq 32880548616876300140465549249521136489310716957023008626465297397547925398311%num;
  Mul 22 9389131352599812747758923481522663660019631250765493582922931926718726087433%num;
  Sq 9546902889124283518502565837989337110980837308246830443061829973401539658418%num;
  Mul 22 4402608167601478289095056744506279543855796509156538612898508844257857406229%num;
  Sq 7283913360030019464973968541975114492616602513508171962564639910340149918168%num;
  Mul 22 8658578207005555981774208427803881596732579137481536117545908450664590226473%num;
  Sq 10238675271491161128661869486495468605080763070023220648876379098471721842639%num;
  Sq 194279442871801951773520652232592145773089575967214873643279938248571653193%num;
  Mul 22 15410396141474924604946359204424787557928430372663717306903817265492948727414%num;
  Sq 2216553534179642864882417027985630773928517461637305920687518202044212536767%num;
  Sq 44985812551558413227679411375338653211957759702791356549874514934828967249650%num;
  Mul 22 4240183206329185056307435246758006402213122334772201166712765080880652993318%num;
  Sq 6700765805198636531247725895203548442656334229895684138926060625038780904757%num;
  Sq 9958410975397045308589824155214207722668048537362559022056205373126415298680%num;
  Sq 14351450236738913209691472550075577447177905423756051801769563151399670423406%num;
  Sq 16614500886308446875767134505616175444452347145090500756528874335226268153425%num;
  Mul 22 5022301290772345933156316479165183977835639024480047639032991427589775822254%num;
  Sq 3894833935462745018213445073470920664447432494967242510610526444167276484390%num;
  Mul 22 17921412212989916995125491477485289779443821882790421515754442128254909671925%num;
  Sq 14672224490260413879888465347367748162814579246724108582344166063523773581612%num;
  Sq 289071287665341366069982692243013763400710493105693157269628922402710870728%num;
  Mul 22 15207874095082941024010990990969485954044618341910750127847933312528219435621%num;
  Sq 438331589048741741888981749875982884898767989145605597328071900237667685856%num;
  Mul 22 6316668974048317577469446666648897303506701518501100420559057361961225437173%num;
  Sq 34422347048227643104849710229511038389126702394392337848586922754240033888865%num;
  Sq 610120752496872036779201166187030205914165348851450917361532806134611767736%num;
  Mul 22 4611249938192311241963305702841656447054219141604106104853952907924246385178%num;
  Save;
  Load 2;
  Sq 93112016449333308815226635989772126671570344602501754043410675540096453420%num;
  Mul 2 9068847344413289863105766499211592939412670141069263784473424372767437849%num;
  Sq 683932820345919576599981648662036963376874229919541237866920634168941490720%num;
  Mul 2 2054832298710161713896798015991626318733524601603800997381823757599358352394%num;
  Sq 48538143372659056493165507351503461916766059614277789612410959035039416600062%num;
  Sq 22853390186537795334986572211445554575961934991174972291178605103237348026286%num;
  Sq 3678355338933870514428959898988529310081564779457124037904240967839250993842%num;
  Mul 2 1954901534078797912684177941017608306963086760946829699900922252874277039808%num;
  Sq 10062959948302150952400496036931546231055035371264844694139216195929403649522%num;
  Mul 2 2198935559472838880353558534781446203393264520295511152614575456734892442940%num;
  Sq 3415342938232982555990698428160191899288245235364768542345170762037055404349%num;
  Sq 3135294517144715065400272465840031121497790879242610776803158089706941633965%num;
  Mul 2 284448866661261362368176208450947704086738851915414967060380054585964410484%num;
  Sq 18439040731935972205825070662650559803516879057091776663450410603414092238740%num;
  Sq 33435041879682253108377378774546434118215539520567365485900604290120364339291%num;
  Sq 10577701618265712823452067408298605986231597094920441667469686506524611953648%num;
  Mul 2 1273378215776933793325434240372428028322757352278617562076510045573413969400%num;
  Sq 1729683425212201522275136244902012354869224010916531715141336671318319307661%num;
  Sq 25324469143618436272809931316303116631334349812734251611347850918409473768446%num;
  Mul 2 1335219046529896265479482828570150687847737974872870914262819670711310450084%num;
  Sq 7986489396409123508806411707702960568079838925601407419808241627930225583078%num;
  Sq 1434398689552055287503798783082542362839966883720653359421742630141049855975%num;
  Sq 34278093308990502176638094251185092259879185557558433132456458516028336831236%num;
  Mul 2 1726657479771777485353956148842024271708732178836619014195860781305825054859%num;
  Sq 3433499620826871375033748372091453774125099336238917873895088421028833462727%num;
  Mul 2 2009154020435061280289336918045252186183800371901619071955117316775696100782%num;
  Sq 2653255296543879252139698399600629961645116124158148506629059671879640175460%num;
  Sq 28147636530862103256336242435682452318947517205241860460711589382804871755059%num;
  Sq 25993131328078113111057489371230671988844770858191100711491564173704102605%num;
  Sq 11986521546811518853794236869177463072934189213227814096086578095192090916997%num;
  Sq 93278717602915035583134043780497491616699249126034739160465976020640923905%num;
  Mul 2 1414095543826739817894582264998432452858831739674237421781753867918682917295%num;
  Sq 64794286905010090305932179473021634899770749549097144132910574192663168346%num;
  Sq 22040287624885241887819304861604394838220049062910182077824546094574862672654%num;
  Sq 43235323881263178898997080456936244620997657866747242548278409696780788931967%num;
  Mul 2 1503224677108951460584387776841624840259968528977262791948017899245573459687%num;
  Sq 31445131040002993514100757677444628110112537923206719733135903551333115484283%num;
  Sq 21797627327951226884817411555378201967813919422406273450916160952226426495466%num;
  Sq 41830324054693952798178767950662592418693113001564249354854529576252623663138%num;
  Mul 2 99878912951132290683523498601274706967673013934587929328549610221616055899%num;
  Sq 43955323359960477029355765069275922201640099842376418707564776658919995049693%num;
  Mul 2 1837768324153244665859410334087173207085189090736752896146325154943577443363%num;
  Sq 29140149988502919865803502219642223398939359063940003425172832888360486818972%num;
  Sq 2847472695068634115094747395827221169195434878507645063135732305420284993522%num;
  Mul 2 1954240848604696917246564608088883954825955322910634478826760192245411754371%num;
  Sq 3220871611848915328237743628065798531767745320132055974242417705944484564616%num;
  Mul 2 1150876578713201107685672227436754517034122159498110877123814591469079777165%num;
  Sq 1928882802880206710033700031842917156252351857372993912041129651511343074314%num;
  Sq 12830042785852108456489941750025948916750684268468499637405100007796220363647%num;
  Sq 42721249837727461356375871300612345208470426442774447701804992363643346624897%num;
  Mul 2 1716064711431900248050399800278718614832397229061227804968598605032903445894%num;
  Sq 43438805875051895658826751174020069519078992168604660096608937262001220162864%num;
  Sq 21597450275054469822758880646780455216468766055676189620564957986623555804375%num;
  Sq 4260418583491964582145967850345905903742741850851695922435764624963041742078%num;
  Mul 2 1145778296132724186885624094201770887184050654000046821584305990821166014545%num;
  Sq 1918171415044054355881224158926635921866975814628777445073221633096657873703%num;
  Sq 3704378776133483988205081246834664054669229837215086492639283162927769746813%num;
  Sq 171661319676689763246393838504141011820214997616306969422068295753100410034%num;
  Sq 8057263434197395618732000303704380123989255873373728193879126193576638985128%num;
  Mul 2 2163539161597504451783453322502648295011461185372009454955659547566556260538%num;
  Sq 25190898400241781658769020150993459911618144206999749575280557160248381754879%num;
  Mul 2 886795489980067495636866428228419880751789114081067296241491374130723707297%num;
  Sq 34885483524676361771063794019849438658836817170994406218656077801929580008166%num;
  Mul 2 234731030318780439598803741841297014971932241943153742151107437234699820437%num;
  Sq 7751526131626347739537499569481725288736913736410188810511187282342019756071%num;
  Sq 44146518516553878143619256536655071293201563808404024470172241569915601252040%num;
  Sq 4906220982390680384259571053836871048215633159660168368463366269802585555296%num;
  Mul 2 1369262995861720421293000892257720616615098485183525962216932903688138814906%num;
  Sq 36335675858099369276614882658306582999424426974851128685140880296596134235906%num;
  Mul 2 2007713291753411901749562030624962338710604290429469593513229492481891902463%num;
  Sq 5778587794928169443761000443954356866617876286416136543867431185428668766061%num;
  Mul 2 390952912682421403538243033511530659987907970502290866906867969055652657317%num;
  Sq 29585790640885999733566625774752225195871454412230139033955904064646230456110%num;
  Sq 32136325479706976362203212809592892512466464795210024169243359755622210286926%num;
  Mul 2 747993453427107408144441615474477602758479787064496175045500940498115625560%num;
  Sq 4465490818995014652252833441819078777039022839790980780812614350872617099431%num;
  Mul 2 968813347277832436758915865732182498369998787717810516064624754763804512471%num;
  Sq 5674693654449230595046342313420309156234136523166865778954120550443319429473%num;
  Sq 17344535539181683198258018842059256563065684995015196047860159325662265326308%num;
  Sq 661700307660890374857680602355504051493833466625636651766975194172936807565%num;
  Mul 2 1810045356802107283164168819900900929535764516929882576293991713808652777937%num;
  Save;
  Load 2;
  Sq 93112016449333308815226635989772126671570344602501754043410675540096453420%num;
  Sq 883280110264015818701853288377128835994526368606612893241480127131870028%num;
  Sq 4715771007759752236325043455118060914017464837940724560757076150968878865140%num;
  Mul 2 1908229884718680222654360152734934634366957956382675068936078778859382302183%num;
  Sq 30983850785683842706268371261084108171126579766288158295194942535553122619116%num;
  Sq 18571824489869246261801454404170563937053323741799767725642813121622051863105%num;
  Sq 829072143102072293454984643775996458891057703957056126590001262415835791161%num;
  Sq 31625782847989563273140468378712902722338695380391762833216426490674397535419%num;
  Sq 889858947541503242892306962787593582488904519863309312602372289678678867065%num;
  Sq 17987897336265593100482094518479730530670434872133555064257447251439283121711%num;
  Mul 2 276472116914502939012590335009882651365864632924417287402105143743312900370%num;
  Sq 27538050325879733318313652996835228859708407426068685240480337631949613813053%num;
  Sq 45713052478499200961601382761428916695891916103988294290843074980394442299408%num;
  Sq 25396976219195008600436205647629249560496485865159016466097740553656031135982%num;
  Mul 2 1053202089436408544994816345855869184230886218163901877935202978811174203498%num;
  Sq 13104999947537520112066604271899559070711376803780349131585466537548743067078%num;
  Sq 11691760320813193265908753120137662679307889033642994311955441996238949527277%num;
  Sq 1143989189046438286111594866302304846744812127037892987844485235360245332097%num;
  Mul 2 70493989119795859230201250264149802654197323245945565212884594875351078843%num;
  Sq 2121124240216808285124855678710024472285991830258823533300655211086781804019%num;
  Mul 2 48674576302472390783117589108086709508396292381847023445656609579098062273%num;
  Sq 1692240061086933021744048591358083764352399410659085983071235636675803516797%num;
  Mul 2 1760574208581554465702054780223609040678035338357801491520500205252325474859%num;
  Sq 45596614694688147017597299952875354515486585458183949319173565193647021455131%num;
  Sq 12206799305451002917483552699520017627811290306840958931070129478778823720701%num;
  Mul 2 1181627004799971031742938804945004038052521811477932687879420848889935617713%num;
  Sq 766083015900209585664716286112903102348007310773634806386110699654975289014%num;
  Mul 2 1585335276007342712609804689739920542621612427961338792683366891768181410443%num;
  Sq 2203465641043780476191442064084049568945275158565779140576029348726740131658%num;
  Mul 2 1494778753315498750711174222834501081078100946744975108097732866324446811919%num;
  Sq 5350727601380236336486521649033001627392305579742784972782635701202379526282%num;
  Mul 2 751625812641487535672156704411454956360620545272374322513283941044980055956%num;
  Sq 1052139939825924718941267324769699395537425733414007132413031098736793492702%num;
  Mul 2 1565686719148597866632810236619619378074741205579124731408277574527019539053%num;
  Sq 35023514000506932601218126003300025410104895207582491756756826220694962683090%num;
  Mul 2 1653060855696333108674557092078504137331124278377794462002395850017585715933%num;
  Sq 3130271140549982354108786374896566203423427900756001446054752105464714113525%num;
  Sq 101988946011067452475462749491604630843541870988120941398975764423728812%num;
  Mul 2 887206836810882948301317523355774577546346421353531148991433525396804576413%num;
  Sq 50607418857718445365486933084999787224945913344926036985246119391690609437794%num;
  Sq 13800629077074142818192977267779096154453857199577504176046206220749010397979%num;
  Mul 2 1323225612530166649982838591734405109172558463202301104068714145837063090610%num;
  Sq 47449199393655817280057692452679843735264741021758655522834350173341116677709%num;
  Sq 34116889708095575346694733629524464075315681154384969851494949658981147710783%num;
  Mul 2 1506492815417036864369734553461189313481475488575379992168764015933113197523%num;
  Sq 10631499179941213108899251876695061998840637845562796487454728161229864496228%num;
  Mul 2 952500759832255645745017759075219745511873005532971003778644510054124064386%num;
  Sq 1168239141033798120367867305774503330153552748015267124864357124645941667638%num;
  Mul 2 1267836109493006520777822317397185118167297160270674932612712702707836330600%num;
  Sq 22822480788806578347001685283073367691074368870036516348498361532866782109179%num;
  Mul 2 33763369246644463549782190868179742726588993069396122101137993140119839174%num;
  Sq 535370621898637010467482409393918049980389520452246089881989700398186535853%num;
  Sq 31313109662622506686732252689032036459370463515776949098269343401907566275438%num;
  Mul 2 623610451269200707391576361043368320039257229491226648946041524435515974454%num;
  Sq 719138495933465154464416354706391330414596081540569090591585010287632397884%num;
  Sq 16286667212286512926686575964982284484670627061398677316732051444370226316974%num;
  Mul 2 24445422210091146694437354076499936667687581234708584481869201996395914072%num;
  Sq 17700508033456532922009104493355607031643351437375589199765468245641597021414%num;
  Sq 24066572233289084914415249613737967299109061618979915585485908266907569352373%num;
  Mul 2 1363054330443174338059721563486061692247198058276309924366765959028076569829%num;
  Sq 9269506629328987532623559692215387299495630488564486812289174884874029828595%num;
  Sq 26882161126357785718912065411181922005841509107347595245044925701181628405054%num;
  Mul 2 1471824664466959536259847344974512317924113986464308206439665859983534551039%num;
  Sq 1445637841850138758311298754337977901605984532529881592777192210399951615865%num;
  Sq 3183560321033056847187250722737407771358024322249231995781689646072014699256%num;
  Sq 14380026455699345457496897973944673121102861290878865275783612958957072151036%num;
  Mul 2 1380251376511103621637924072481134963358134003939058650198392409002248330195%num;
  Sq 18942784963017664345413780660664477689766976983316474647727092056283464820252%num;
  Mul 2 268238928623060124409594307010991567133420561887705052360271381359393266827%num;
  Sq 2502581967061944193905513468058373059204317090051363651588914636133352627413%num;
  Mul 2 1301707531196334246931198354770120306586574782144234271041896255573666540410%num;
  Sq 14045057289973768593894326010988805784001443554622921210313458147917657638737%num;
  Mul 2 1486198015579162073710276402600916914203047421281119394734949396428871362692%num;
  Sq 10712276041786641673755079499660151592937547571725201196224037974715138323970%num;
  Mul 2 243392222042459809019302349984157577215649069583877089425793460703938397057%num;
  Sq 14820529823911604110409227593583588091516079111562875646463126575680352543982%num;
  Mul 2 1279119468414353742122711151559117648120733732351541332570547524419720305678%num;
  Sq 290936308801205250879356812785872917072160953430315987689621795373568741503%num;
  Mul 2 2134222007230451059690455822970122058475337578371981384791526526315384323825%num;
  Sq 51744493442332359179822931709309250112766701033011485135772016282284410672271%num;
  Sq 1379116157704476221592680963827315926559206697180987676111895671754410514788%num;
  Mul 2 1092343845773739971071294098032681389952998530879499485182487830641482287953%num;
  Sq 25381222839842424721873717597478644950142174995693761902657235822562068527533%num;
  Mul 2 430016977122776410555544958910683835183245945732741152313500864945504965504%num;
  Sq 18471678550422299087988624577874566723094772954425708137388542796481278915128%num;
  Sq 26066193010266976394311335103861084975721938918195188273780067523288298413334%num;
  Sq 1624695237049373298032479197736220940873613458415129162294328357702946847553%num;
  Mul 2 960677910645645974966585441138650376437552644388266612855172529570324919785%num;
  Sq 7230566523743348394192805013930651671489781455313426819945080221272590490122%num;
  Mul 2 507341580949148826923222975295593320001904796447380495720240635519784462877%num;
  Sq 45766943839892915073363228152712375450846154443265718991801428621463872639913%num;
  Sq 1427799070795455665456613075155754635302258281687697459398200543339148186877%num;
  Sq 11095322292562382622440529277294673095142262578079675852508260896850319906154%num;
  Sq 33976178374637704431136546692177475366995147957777708813070883768732397698048%num;
  Sq 36077697826290186297323840731715050490943234725037227722678808663416119710016%num;
  Sq 5448116389240188744061731702578847019063955994507718905945900416526755531393%num;
  Sq 15329051243293839857822263771781754508600398622968620951363983967315819062330%num;
  Sq 38952370415925382414299197621586180627160369828523821420359170071277620035131%num;
  Sq 12668164258482202286834703810657917027652250959945464234392873915904012467266%num;
  Sq 19842944814953314963945645220783979356289533909288350150967254862817755303562%num;
  Sq 2312427046867572690683502749587720581480016857225496674997920314761926902742%num;
  Mul 2 1408746163586823054938185002877578438157442008636549292048197441791914285094%num;
  Save;
  Load 25;
  Sq 45522919772041555753547180057184990774491084817616352205334508044202204914278%num;
  Mul 25 13961212443210394740603555899443448189048400481073406255314322085828311381909%num;
  Sq 36340809739129069569271427853030443390489344451743201216203311401391401709599%num;
  Sq 1649837977868669090908547964691605347875825894883753735167432579925989538508%num;
  Sq 47911798632409615580170728914562572724218451913900255660531998815995503921921%num;
  Mul 25 30823743679750365394864861483264964711220273573388348656030966362474144403427%num;
  Sq 477708669546870304142997341098513258934880086804120294811810732059975528198%num;
  Sq 2731130136943960301437778017209870760554597257306495801193911282490408784465%num;
  Sq 22928325743043765075237332600612172310049592166769990737146716528283180177737%num;
  Sq 3544990105837230217861824335261064779882311023001678063115954370259565012837%num;
  Sq 32127318080849112388255107357917416321103128928110738692637046021329679721794%num;
  Sq 16281430063475399187113490100424730777191600330602752650371768463566517790207%num;
  Sq 49903789772478423616817099533691979447481580108084862455733143276824219889132%num;
  Sq 2329357492355358426512591476381565253968973475846769226776081216288366365837%num;
  Mul 25 46776200321140928767629496220479609518974276403983312956617174853263026487495%num;
  Sq 10767812521779042634186190957799346835678599571171435428372122574636457888943%num;
  Sq 624191742587867101161326074913004358543477570445727557765492314906626069572%num;
  Sq 32195157822286374127840344277030263445168702769660498478576061478188090143406%num;
  Sq 5114984375375982334499170512311548784539611266403039602085021765193982963535%num;
  Mul 25 48354995758279711333703868230142265423614290809867193811177945434053980393773%num;
  Sq 2615803213952577366064887050551129833884057754442579471489603452601285708508%num;
  Mul 25 25224089012562271056155081610400666923143888512579568957970370039202902833126%num;
  Sq 1947164495998470875291467790389604188267557356877135343239621944572906097718%num;
  Mul 25 42999878151998594795809933808057140141352081661611845632152665447964371667730%num;
  Sq 44534071223353304386480524143932697797575521430869916542251526216618887692127%num;
  Sq 5688257776802007799603947045499595264348102265904820365997571185599196059829%num;
  Sq 15224503364564072189639826416045473310077144076260901398507259841059135338246%num;
  Sq 1115978163421359103024939585423620217346575018287437886272684351607969469409%num;
  Mul 25 37853515348529091896044927327306521046040868033639530517551873424130930960896%num;
  Sq 4332469946105126273374157786012462173802565322730643892467275402756196825828%num;
  Sq 18547898213422220420387884771804769944364188701979670439771162014700993308874%num;
  Mul 25 41232051242164531860294912370193307585931512754172868800561596549688342528742%num;
  Sq 11802532447184251650365463317189439218623054269125899761375897915014247366402%num;
  Mul 25 574957349148155634988706316821938693006294821607104864776709916135835901296%num;
  Save;
  Load 25;
  Sq 45522919772041555753547180057184990774491084817616352205334508044202204914278%num;
  Sq 4281699281603690329080130273429178255174815346347098915957376268320516355768%num;
  Mul 25 40344793500102157920671057090139313414516276583552733130711925956769179127094%num;
  Sq 8204953146189387526502341173944835956089761779557076912408939364444687950979%num;
  Mul 25 25063481743940319161808414553460988528519525378499635207738941888539633717103%num;
  Sq 6590130464232272314011508859621351310072577722322307816928437013249213654682%num;
  Mul 25 7329500536890178402193643048043915639912442431865264065857770527773773783856%num;
  Sq 68642934358861287967773894379225567442623764487950887714162076563796909127%num;
  Sq 1146448081760393127615365457204095347438180332859288546617117074022356681716%num;
  Sq 12548517006896519916449721039688161310184439424025719828766181647176280787552%num;
  Sq 12621404780753135872274747035205271539023920926445058802511368938768708096768%num;
  Mul 25 44755273125023097425420447370555617002995836920082870295233561004920009788076%num;
  Sq 7090139280550375948640536735964004232261713264243546693651768480298624523532%num;
  Sq 13250789760410709858466270603655651600070956594036353255350492723250642951241%num;
  Mul 25 22098298509523850581024624516779891688900069615431052466951004773233634544754%num;
  Sq 2997299239270398739323479612405199722514625856839366243591549005413317269512%num;
  Sq 40027866355031170402247550211381598627958581085010623890818547279883062690197%num;
  Mul 25 15314379187389501992908042965292061445049890467047348793045485916387819561801%num;
  Sq 48790200694309482516455361762143185304879705219802309881032074193628603869392%num;
  Sq 1742848625828387703285400328399776152912127628723300030758798607881778758822%num;
  Sq 23341876010068552974040563141497871639363983259192368900957194882721436653288%num;
  Sq 13593194568076644304856665562633705901030070456510475760934781801128437847182%num;
  Sq 2547503659615144239070729300642821925844784212414178617955980790990030425747%num;
  Mul 25 22998843706922447277161590737889569158385966517904795652313631598350113877316%num;
  Sq 3052559006821495940057445886981656527835419812783940311671414691096307383007%num;
  Sq 47341526947379688292688946497523534609836986848106639550715540024783706075550%num;
  Sq 38079570822596108184445619428566859723241584153363887247043649560220297035340%num;
  Sq 3845762602615241973943577904149911398078053178828619307898524574698240058589%num;
  Mul 25 30890047921916197381090190757291881467554278279521128142476586699678634095349%num;
  Sq 2421346854690957869503016177847477324620357742393260891234306488887595357353%num;
  Mul 25 5537798896443562187046007704893831608596681299750004428918093583481667476908%num;
  Sq 2238643666648062868211754227372875902582351524304798442757653434444721298420%num;
  Sq 6704605468690906555608459738276198565011659801794966403167014263032851624761%num;
  Sq 36446493410972542614977871338179888319742912082703577361426260387667186742793%num;
  Sq 7424748745858897433726452715045452226762917388068001875391989170510385465419%num;
  Mul 25 23793242586552049909942207945247358505366325608193588539640417683356166904537%num;
  Sq 45767646557855815391442303466250621976199168261900201760393970539103653750956%num;
  Mul 25 10342412242991642413138842902946950990899899112433566138888842427203969326770%num;
  Sq 6707604331898598513664981888671495748174339794577912062076116388206636735751%num;
  Sq 31224039793326777366391743817715990364329195819911214351673113549804444999480%num;
  Mul 25 2835673847884487605863828456279286224153727665354581315070354632284673943591%num;
  Sq 26522823566747944235082545912548739002745820785577999219306534033678163839261%num;
  Mul 25 35775909263415339508192803436211549410274403627086937273350925501946637175347%num;
  Sq 16090825607197131321562392996949098341573485042930728683558848076057590371%num;
  Sq 11076187802778031263456226188949821913209301272775287099101959203642960324886%num;
  Mul 25 47052683535807637849238689732023459284897353020483205537214252068345143676241%num;
  Sq 1553379219331678134286316978331657604045675924594774390314856892204291678530%num;
  Sq 35859829826691708523221423437983229671724671692022640388736046924063578787464%num;
  Sq 1554982455206425227757215589016872549241955257237036721441314936316857057748%num;
  Sq 4033814881382009884259044398704424618304205048312336573682708403534120555519%num;
  Sq 14998731333437316935685753885279777169728369196986633965874775081825407543064%num;
  Mul 25 10179568582231585519370188295499969476915587599285746308164157609915444885494%num;
  Sq 2898091288468937430035133312173905224480605517531739497335694128793624583912%num;
  Sq 50448360771311088646462177934624215180268745785409742193696461096247279785208%num;
  Sq 35062072373529017775461568016657408018309701976148004556036278120621422090752%num;
  Sq 44339260878848995570160983571349046515114168585081402535725003368644733773802%num;
  Mul 25 23948647308186342724737809096418324118833405918744987938851132773742733089347%num;
  Sq 665725166636210222238069640461939567230379958613256132183846641150916279033%num;
  Mul 25 30264711368466961269991236527759489123912700516847420763246046429039719323212%num;
  Save;
  Load 27;
  Sq 50635634707509155703628671611970558495017280601570299762167884621463456285894%num;
  Sq 105350334690074263677970384984567944405193915683230696656778127193824569109%num;
  Sq 14484197381355678284460743412867028689350614856412778699217613654683660671125%num;
  Mul 27 42931210793023315701258293480271223358713209922366529856830831964502887101442%num;
  Sq 29450218696092348611476243452731149348012397937140806218105483520254185726225%num;
  Mul 27 8912812215515023971348226266276877709606013655787421285773733752463805367629%num;
  Sq 45247432555806191989900448872452124194701513243369125606373199442881112239804%num;
  Sq 47929690423072385143299990469155662093257887992795771862539154951379972181798%num;
  Mul 27 18567738231914785283528771137227516738427523559998610585810204021561967967581%num;
  Sq 1332870575495043132881592659133771229529000815463654042653764947593918858787%num;
  Sq 48729750887862716058628888385363021404700769176805424946617660214834953160799%num;
  Sq 44761218632400114080462802547903708730455833631467359782247179324948684455%num;
  Mul 27 26961500784303357632358598313039884103149509913811802254591361255173023385771%num;
  Sq 44096542997727914743109754562685544065162952978843773274340480885053749880928%num;
  Mul 27 20360287142303474651560344737111122670053752030128393442792381045677525447707%num;
  Sq 142416408687152089029055638046326881217568100599910200562077615255574521459%num;
  Sq 47390219848145028064669140990600332326159577003535488638332546839520697841297%num;
  Sq 14910657101178048399316358703777772262180124312202133040075300535466813064281%num;
  Sq 39016146081089936730374631955596447105326971675541886953957544148786083717118%num;
  Sq 21928650073099851656513058111229195004728472213811622638621598058785385706049%num;
  Mul 27 42143624335054188377150131796267999226161943341362689291995070370580235030365%num;
  Sq 6753095724660804893997270271180109149572466690103041565315011567581917838830%num;
  Mul 27 47743276113117463255377771380982230204573231787124929594297987423992465274344%num;
  Sq 12576384314839440499723793571904285492323088961147303880955247799120978776911%num;
  Mul 27 39734037287083974260494740303701078182018577298574043759986144763263824404887%num;
  Sq 37606060472740957906367888470427232215388994947447701964238421890232097161020%num;
  Mul 27 12142782024335088023494068339457982480540174294984703274095885639760892018473%num;
  Sq 19912316505440258487347114063832528528055750552850423217573628670191991550799%num;
  Sq 17331378623409984386318345016679282522800456135853022577092084681808193362%num;
  Mul 27 6834478014494484638553076539712270111484701487626402393070542047100563035666%num;
  Sq 304299122452288978988003297909134504124617498611660387732309731495905366649%num;
  Mul 27 23833377339411040171991962257062910343637202347735317196488881643453450311410%num;
  Save;
  Load 27;
  Sq 50635634707509155703628671611970558495017280601570299762167884621463456285894%num;
  Sq 105350334690074263677970384984567944405193915683230696656778127193824569109%num;
  Sq 14484197381355678284460743412867028689350614856412778699217613654683660671125%num;
  Mul 27 42931210793023315701258293480271223358713209922366529856830831964502887101442%num;
  Sq 29450218696092348611476243452731149348012397937140806218105483520254185726225%num;
  Mul 27 8912812215515023971348226266276877709606013655787421285773733752463805367629%num;
  Sq 45247432555806191989900448872452124194701513243369125606373199442881112239804%num;
  Sq 47929690423072385143299990469155662093257887992795771862539154951379972181798%num;
  Sq 6808661628127724375639563771329504943104855308291087029950726787634214197323%num;
  Mul 27 3822000356590527696502384753091400011465419924349421629433367298887669874905%num;
  Sq 49329243276550335156557269531714299341918142985676183550836719842709663354%num;
  Sq 836634575328079487056953091620658950305999059263698205831331419257162516715%num;
  Sq 399426375829894590029460912019863744236170985583856747256261532949122362908%num;
  Sq 218665798559883036498529502630137081892541824643344178515727622325442689846%num;
  Mul 27 25303284810211213409557710254262862434609477428996949335174406709919357658448%num;
  Sq 11012162892915385648888412917111601386877471949083780682019341811758919109481%num;
  Mul 27 2587089674423007485543281917117956975321279470442839458437994396103818400008%num;
  Sq 16643074877399324763800280739896545859089041448572708649970358580858291633234%num;
  Sq 10065418210441337741146746736816071003773319309729335369086347649272475261129%num;
  Sq 13009205649799414340067822085144005458098258998928543987686187208670434541565%num;
  Mul 27 6450915869762019002224368590476871405652720433168927493099463543944844616155%num;
  Sq 897517668589746998547410106262166577530884267709324892989413646935049782150%num;
  Mul 27 37914804207134524842245267235349731578112286316552864078663325777158469029989%num;
  Sq 3912936060830006930813528751417362927764158884431063456279460316991267601493%num;
  Mul 27 27533999533486449262274586354667612013723753697360809985607445191275307916851%num;
  Sq 2322064482069888561989187524440178706529178558787820533271096527354906385913%num;
  Mul 27 8493189892999426517659008153249944920158050970617949157974552529234523068937%num;
  Sq 27187606178934929441890868299699101977222362896598762331119148898369578068038%num;
  Sq 6035689946267364826771877409976600140201735644296017772417619525914145045967%num;
  Sq 10564838891691218817616937891654083122201945714925228861525542877016257781151%num;
  Mul 27 30655873907257127613549318704906822718456438217922393460224171726427740154605%num;
  Save;
  Load 29;
  Save;
  Load 30;
  Save;
  Load 28;
  Save;
  Load 26;
  Sq 10802051087131627263383015794442633858530120816939583854972332047777042504229%num;
  Mul 26 2892890096098054933243075062785399766850280975348232443023082341154815609707%num;
  Sq 6900833754281571039615831912665766954039832445473037711723098393396336744993%num;
  Mul 26 6501265603653188846920730776547468379783883507182729890996520064077071537396%num;
  Sq 16828343605780211887570278118613806237390421357700081156174745884770287466686%num;
  Mul 26 1425164900358114662076290622171391206027220999621991318224251603123242610379%num;
  Sq 2662117639812699949989243089812368648144041189804818333572148001119198849878%num;
  Sq 37297959235772820667499517271897129792597633614899197642611171397596617124317%num;
  Sq 8195898751927495479963268789289744053177482429168731515562276770949437753758%num;
  Mul 26 10699093965486267674478563633023782329243898412072552739248161357919748772407%num;
  Sq 2141781913917545146696536412605932187195759800021161067562558337509645618450%num;
  Sq 12156246947424958249042490125685121373066268576423292822772939154081203896332%num;
  Mul 26 18941039723728942719269399114414969998694823291649086663138921406003735967851%num;
  Sq 50318816513906338840613126057846491954842428505750897825807506205677163322441%num;
  Mul 26 12592974705036377544597652321780865188341403474131852129490652489153567649918%num;
  Sq 40847561433937718404019442142514868086790906417885298079239621218034285661481%num;
  Mul 26 15781984310243214866922585205292923955123749293705767500468160500096702577772%num;
  Sq 44841562749422926945373424589839532056171722916292566031381218548608027745219%num;
  Mul 26 17759246217651427855035017094818716543630729956816140108686090088378474102461%num;
  Sq 7354178176867922315549952055963747367791644383245555009535220099581550353231%num;
  Sq 8109605607996291313816073501029834322770333273159819609348436588628245034791%num;
  Mul 26 21650151038119372331856887346247377838286043963636916840573414988363289709334%num;
  Sq 1788880773528801332558978363028891249160883527473848229767094161411026021636%num;
  Sq 22880828248597796218034024512433686281240347994318307070725325628952153698922%num;
  Mul 26 7014884122187877873794831969746553589586561285274033635062564042586646688791%num;
  Sq 8348002312837406692970430271126035274334825572404331653707692510524315540061%num;
  Sq 7550328838611164353390656996579744345370578755870191344075386762406072669306%num;
  Mul 26 14135035661104353191864939224397726316511337326303701956673864566292116829906%num;
  Sq 17612670758671666328714475564999607890904003869558174960399891611321790193545%num;
  Sq 72439688998214025820898069653975576639546285113815267052595522530525243440%num;
  Mul 26 20942071719460964652493677981312445030361276459162852106468525627249211042786%num;
  Sq 41399985921058147947191202334557795874106845376456400121442501704067670949079%num;
  Sq 455199065267756118621225822279836216684645181833233155882105287863203450649%num;
  Mul 26 3333782468587577412407045986656235872456774284883900602679208380332422906869%num;
  Sq 21696993180413227331198285751617520977798239979484801536639287447999413411494%num;
  Mul 26 17181782491502495942360766189156031783516563629286364454468027245685194657197%num;
  Sq 23349676141045901856593904136903633357468819180955243873394499069020624053058%num;
  Sq 23381418232331341691986492561598902188017137784912224463206620718039826247077%num;
  Sq 39020157649065233118593821124571822044090482757123050238815250350884553058249%num;
  Mul 26 3104873104483889143804500577894494990371450161098937942744701129179037134626%num;
  Sq 1231362184547997807948913625895446143925337528055107916446497568473333114029%num;
  Sq 44966927255141133044657240323328924727742948703672879017550418846038477902317%num;
  Mul 26 14849435166468526590884096900768667796340704862692501461345319409433440110641%num;
  Save;
  Load 9;
  Save;
  Load 10;
  Save;
  Load 17;
  Save;
  Load 18;
  Save;
  Load 19;
  Save;
  Load 20;
  Save;
  Load 23;
  Save;
  Load 24;
  Save;
  Load 31;
  Save;
  Load 32;
  Save;
  Load 33;
  Save;
  Load 34;
  Save;
  Load 9;
  Sq 52435875175126190479447740508185965837690552500527637822603658699938581184511%num;
  Save].
Definition fr255_invs : seq (N * N) := [::
  (26217937587563095239723870254092982918845276250263818911301829349969290592256, 26217937587563095239723870254092982918845276250263818911301829349969290592255)%num;
  (34957250116750793652965160338790643891717372063634208689047487940972256078507, 152659206768433052043235717973596089001)%num;
  (15237313608488036111689775547677265494030007996893459275632088102409617761759, 6688893201776882798568373548439971164542306900291745657858816671398356327942)%num;
  (17372250238261164742944716364847819552654733795210267180674966167200733303506, 11249151051743833609917750624559618080163723927519975638436643524196026907817)%num;
  (31632662147513852104284722682864615366194693039679563367706592809451509106062, 7839053190674379319908310711727005825093343905393023163916460765396426643471)%num;
  (45586316949702288865595937911126532596552252939487288316664680991909190629232, 24313308301327068946649649702929792053313834556077239219311939847311956091935)%num;
  (31096133001792019692169709836425200062158390207101479139217653802309251457969, 27665052342964118778300438053653365291299476266322571481313281282813012858827)%num;
  (29151262252276627170863686650079642517799996839957025940997617530301678876505, 26134447743222410652296736269796401180133722560371951764218783771639863300268)%num;
  (34298639838597154104616345297652762671243825198233599603727653869914569109675, 2495974803497820921110126164647611289021224491201311424358576777315186235098)%num;
  (28992909499308446102318145929488837859780004099631346323296574681787418299536, 27397859821280488168373524616507033918594846739358445716330079431150875524063)%num;
  (16886755245871592402150520133323802684375871656657805845969397140992207962765, 9064222451153756985160294128376637582736500264829806767037286749541490498438)%num;
  (24675323886831622127612097416448099851529718468688737594381699456767149257066, 15852617068756755721124476202603036975566922202431367482189482464605006192715)%num].
Definition fr255_factors : seq (N * nat) := [:: (2%num, 32%N);  (3%num, 1%N);  (11%num, 1%N);  (19%num, 1%N);  (10177%num, 1%N);  (125527%num, 1%N);  (859267%num, 1%N);  (906349%num, 2%N);  (2508409%num, 1%N);  (2529403%num, 1%N);  (52437899%num, 1%N);  (254760293%num, 2%N)].

Definition fr251_prog : seq instr := [::
  Load 0;
  Sq 0%num;
  Sq 0%num;
  Sq 0%num;
  Sq 0%num;
  Sq 0%num;
  Sq 0%num;
  Sq 0%num;
  Sq 38416013609978909043060177871130708577526950618%num;
  Sq 349481090728099293556540606158555763002238962454140325494413591334349977407%num;
  Sq 94063831062019017262710840291794234924752909377436760443379794717463532470%num;
  Sq 116119558472433550729359070389892233842237856039881399087352647501406827473%num;
  Sq 748115168514526081917172719383845137459816361056523870467816222293951326090%num;
  Sq 3567766638950341984762996702634639000785193052913521974307967745219916818765%num;
  Sq 3170844049793215755239950172691618931684554602584804837949286296487390484048%num;
  Sq 358570765536989151185373229755282080583162549956700407533902998308389654226%num;
  Sq 539295776346260494269816202372670665910943992833902845948138529066829799365%num;
  Sq 189415993068727856013016620519314169591973576074967528207797749503945319279%num;
  Sq 1671659918433953822828044766647231190313639161693429049908094224811361312073%num;
  Sq 152998456655200521133360733756232905754482207828131893572711621907286610819%num;
  Sq 1024920143232755474309445576691747285465223433617149354267648354853330750828%num;
  Sq 3457672460811302462076743004935527368366277540419179664474665800985165283004%num;
  Sq 11232666811707474539817674496930398882126224264811408761471993014549292600%num;
  Sq 2846749528347328272640195470304645056908642419937857077635845828165202593001%num;
  Sq 2004256737975072945683791928179442754218826533809226019163994728130102274701%num;
  Sq 630032670305998513629575042259130359304943330531186742276660488090875016447%num;
  Sq 3519717875001774499997691059211090996193813113512921942765974345745574508755%num;
  Sq 919033497333587347073264589435562151001830485961433720853611445233756046341%num;
  Sq 2086751192153417885780154008391735711668657652591009151109308894219696024908%num;
  Sq 28195416012932114931544175466869946302048129624040536762849244408026125065%num;
  Sq 769437182247538364980337339596428271129128184053186118500144122230760200108%num;
  Sq 1885116452812854939214381517000453267084910021348085493036150232000702094231%num;
  Sq 1298194002606958359800266214448627474303430944999222759269880123735216679140%num;
  Sq 2301783088924998991381924199573272822913729160494870551680220030972990867009%num;
  Sq 476631009632174349108611760286679973297162230707406028439805742793956712871%num;
  Sq 1393197516204269341044038871453274537700401570802566246765729119925503866468%num;
  Sq 681085701831256968854378534708061617823306643032016123107583083139911690451%num;
  Sq 1631468183078660754467977675547026667957566616312087121546579228065325249649%num;
  Sq 3332949634973116557870574125538574844284939014721305662750938551109162408498%num;
  Sq 253101386178662482264922071293170685632796992711027264782172456847810717035%num;
  Sq 363177935394725416518397877842585637574863348262741194781688495665401547392%num;
  Sq 1506511226498630761110489555773939558783566021143834212714259131644789265257%num;
  Sq 1994850867671837791935272199164534767865728904873674155078940856819967250631%num;
  Sq 50499507753574381310390681034319139854094967063161019402204248733171605536%num;
  Sq 1202548149048000628569232816664571115922102016907959783555555243385822854977%num;
  Sq 2991511304249380719176358835029870414527776079053406230905095534760128160034%num;
  Sq 2049098633496736571459001311657359945122046937148896654404141013572031919169%num;
  Sq 1677920904372968680176753853440613030126873781966794920196442401866722110207%num;
  Sq 1124669054942374805728571582030084615508574222847787968831397667552489728752%num;
  Sq 647534103429037405922222230834734612202032869311215972100253901063272773561%num;
  Sq 2638797402355198181989603843027649889114132393421963428403099735245616146453%num;
  Sq 1724570292206869381012824620194813975042305962468831978742739427122303829847%num;
  Sq 511326016581160197749843158883717927021783691954206918261626941249250025701%num;
  Sq 757251769473623012985921936825763740857705558247733637852313769870577080381%num;
  Sq 2289634282735831600760813335128898409071199802164663050428042895247921202258%num;
  Sq 358941024229537481718967534757036651392659398262551742392178505797359395528%num;
  Mul 0 0%num;
  Sq 2905866928292993493083103123207329082955560863312767004704270868541023022104%num;
  Sq 1762714259704158728920374693080301291350629085306604396253409126978718355476%num;
  Sq 831642908186902946592720961782595463048181577858462489070182865522137987115%num;
  Sq 206107196536795254283247697722140740159230782910859648273304553247550973%num;
  Mul 0 0%num;
  Save;
  Load 0;
  Sq 0%num;
  Sq 0%num;
  Sq 0%num;
  Sq 0%num;
  Sq 0%num;
  Sq 0%num;
  Sq 0%num;
  Sq 38416013609978909043060177871130708577526950618%num;
  Sq 349481090728099293556540606158555763002238962454140325494413591334349977407%num;
  Sq 94063831062019017262710840291794234924752909377436760443379794717463532470%num;
  Sq 116119558472433550729359070389892233842237856039881399087352647501406827473%num;
  Sq 748115168514526081917172719383845137459816361056523870467816222293951326090%num;
  Sq 3567766638950341984762996702634639000785193052913521974307967745219916818765%num;
  Sq 3170844049793215755239950172691618931684554602584804837949286296487390484048%num;
  Sq 358570765536989151185373229755282080583162549956700407533902998308389654226%num;
  Sq 539295776346260494269816202372670665910943992833902845948138529066829799365%num;
  Sq 189415993068727856013016620519314169591973576074967528207797749503945319279%num;
  Sq 1671659918433953822828044766647231190313639161693429049908094224811361312073%num;
  Sq 152998456655200521133360733756232905754482207828131893572711621907286610819%num;
  Sq 1024920143232755474309445576691747285465223433617149354267648354853330750828%num;
  Sq 3457672460811302462076743004935527368366277540419179664474665800985165283004%num;
  Sq 11232666811707474539817674496930398882126224264811408761471993014549292600%num;
  Sq 2846749528347328272640195470304645056908642419937857077635845828165202593001%num;
  Sq 2004256737975072945683791928179442754218826533809226019163994728130102274701%num;
  Sq 630032670305998513629575042259130359304943330531186742276660488090875016447%num;
  Sq 3519717875001774499997691059211090996193813113512921942765974345745574508755%num;
  Sq 919033497333587347073264589435562151001830485961433720853611445233756046341%num;
  Sq 2086751192153417885780154008391735711668657652591009151109308894219696024908%num;
  Sq 28195416012932114931544175466869946302048129624040536762849244408026125065%num;
  Sq 769437182247538364980337339596428271129128184053186118500144122230760200108%num;
  Sq 1885116452812854939214381517000453267084910021348085493036150232000702094231%num;
  Sq 1298194002606958359800266214448627474303430944999222759269880123735216679140%num;
  Sq 2301783088924998991381924199573272822913729160494870551680220030972990867009%num;
  Sq 476631009632174349108611760286679973297162230707406028439805742793956712871%num;
  Sq 1393197516204269341044038871453274537700401570802566246765729119925503866468%num;
  Sq 681085701831256968854378534708061617823306643032016123107583083139911690451%num;
  Sq 1631468183078660754467977675547026667957566616312087121546579228065325249649%num;
  Sq 3332949634973116557870574125538574844284939014721305662750938551109162408498%num;
  Sq 253101386178662482264922071293170685632796992711027264782172456847810717035%num;
  Sq 363177935394725416518397877842585637574863348262741194781688495665401547392%num;
  Sq 1506511226498630761110489555773939558783566021143834212714259131644789265257%num;
  Sq 1994850867671837791935272199164534767865728904873674155078940856819967250631%num;
  Sq 50499507753574381310390681034319139854094967063161019402204248733171605536%num;
  Sq 1202548149048000628569232816664571115922102016907959783555555243385822854977%num;
  Sq 2991511304249380719176358835029870414527776079053406230905095534760128160034%num;
  Sq 2049098633496736571459001311657359945122046937148896654404141013572031919169%num;
  Sq 1677920904372968680176753853440613030126873781966794920196442401866722110207%num;
  Sq 1124669054942374805728571582030084615508574222847787968831397667552489728752%num;
  Sq 647534103429037405922222230834734612202032869311215972100253901063272773561%num;
  Sq 2638797402355198181989603843027649889114132393421963428403099735245616146453%num;
  Sq 1724570292206869381012824620194813975042305962468831978742739427122303829847%num;
  Sq 511326016581160197749843158883717927021783691954206918261626941249250025701%num;
  Sq 757251769473623012985921936825763740857705558247733637852313769870577080381%num;
  Sq 2289634282735831600760813335128898409071199802164663050428042895247921202258%num;
  Sq 358941024229537481718967534757036651392659398262551742392178505797359395528%num;
  Sq 322874103143665943675900347023036564772840095923640778300474540949002558011%num;
  Sq 1450379649760888093921091998579216226175879619560303194689496257161998065085%num;
  Sq 149775925319518375135063720466726324505786042085765989125796377085439316521%num;
  Sq 1761740120543071609123686763054329597537069172154294196969280253528921272650%num;
  Sq 8672492922220486285825410721353479285222763275390122291926587860951273586%num;
  Sq 1066176603826859914030737461046457082678387761589351717759056259205941693585%num;
  Sq 102638051997487585978692688071550523798920386377069901324739869132272125%num;
  Sq 1274694506973929876699370795168809763942939902429662645859476410365592135159%num;
  Sq 1731063664041071856352914466019826892905731524210802467270946720063121539747%num;
  Sq 607747426498084183715308722459275503986206896030372331431113556736875557%num;
  Sq 442976732959207172327078842640683728417368250643348746287545151824807966432%num;
  Sq 1406636749329817620820163446027750299826824060918803819076970825606789062283%num;
  Sq 758661129524317352507189763378158658934172073869988233376080015626417264156%num;
  Sq 297036006861834273570364601753308073727002615185422403896971425719237903069%num;
  Sq 2823304416371657029913051178863299658361603375950684244713054862882326478892%num;
  Sq 1679448625158866613592187759955109167239464006004213392979435476228026129%num;
  Sq 38522090936715900378773205298065115824866528605756965424464999960895576661%num;
  Sq 2648992447987950128051042376357916310077430301671449537798796582875435584339%num;
  Sq 97754874960110449593875762276350350177637168374745874699057020573950115%num;
  Sq 3498639955947959831751087222062876700174604728668848933845108219684501463366%num;
  Sq 1948148779291366535530733643619245599660536628831489134243793510021508264532%num;
  Sq 235756095644263173911739195112235294932010982330603460584456872536591871425%num;
  Sq 16756174373819995554946584767416416882368402889705941174859449315713468745%num;
  Sq 206927882685465807688423648377397623830774553141930732443088528591923181392%num;
  Sq 918940584698802055147136532627588960563056081350699873774942730580204799663%num;
  Sq 3353433420426749011061446189219105000210521279552831215712108004924578404198%num;
  Sq 1912415614194582898197574700628190756412032029439697179821586412730672095744%num;
  Sq 215756849547956057936790413789753002707499968932238263798718621853152248324%num;
  Sq 148012102607571053168591996341115086934557942238790482831571681425330720516%num;
  Sq 517533644118373958846738032711560476408795121852594909583648181607047412608%num;
  Sq 194607036555321669541301775782832929668070512272005256989870345959444035%num;
  Sq 1512136654269429129969376939549959991393389564509129962546087368490793532920%num;
  Sq 238373964075208024827540348403028864925008468426137879081750748382852705798%num;
  Sq 1386209239196937069025962775573620645129249676062343788424780297861064920152%num;
  Sq 2723447796314981021971789259217788027775903117202388026729986561304465136764%num;
  Sq 1175960476659064100042335092633817796057444097329880708423644030681245017201%num;
  Sq 1756289736296864557899378360725331177430209935391751651309534966123739972734%num;
  Sq 3361533021302196288256767916202598523839632300403604199395369516806948021066%num;
  Sq 1137579114878849754781026316900165371245586489156319107247530202876310467355%num;
  Sq 1026132472639898070886024188347200500474039614812997806572157051628344067455%num;
  Sq 3493455699085550914252147062742347929047978211916498570947994301738302532557%num;
  Sq 2557346666049367812972369450346623798845845079684240509988688809902072180953%num;
  Sq 3105770528047782586116245960810606303757056913324647258830297251976206477046%num;
  Sq 2216410072218577528149168224900237519368351115596271652173300857638944196339%num;
  Sq 3504140929262699665034819086836315273207912607006771755154960027855153740262%num;
  Sq 471927804664577183387187862990931066627882950725502566193969038855129106295%num;
  Sq 2111298593020875620044844644923633478344687345840827448666134829715388761431%num;
  Sq 489164074212983499260664289029841087697535691522011130992499406127426039470%num;
  Sq 30664461144262038446524034926197857311021138390976839673733146813581401029%num;
  Sq 1769710656663720330747985389717231360487955796129732359204128329467433978360%num;
  Sq 1606573806804040922133883363932651891261590919940120967402703188770490388533%num;
  Sq 1903627444207879999773629046402655665974689401557638426812168709579354160278%num;
  Sq 6686311504070249921329906908688341919791069116942023559973487404457271671%num;
  Sq 685088280948268057960430554684007992295423009985272789750511874605089226911%num;
  Sq 560857981541913428493344704874913785855535410466269065843494624088764764634%num;
  Sq 15091791506113966013881163669126518766576124556977922555567621408655202038%num;
  Sq 2496488157892346869357990868733459073114917293863130833979904889616957852342%num;
  Sq 219911786134691739419194305074292709630516750467829967643869400081387934368%num;
  Sq 1477235699243638941584635465701804986464366285057116203089902625686584321280%num;
  Sq 1547581123140381649170795074565424279975886806765654785793067978310163962679%num;
  Sq 2690329531133253278385484964134087284597603684183112932447556117150001934836%num;
  Sq 154556494323636397702529450285204398475427420769931679642884738815865710689%num;
  Sq 18536801524307679783054408912774495309469790007750054407910825891668569%num;
  Sq 1358013581474479037181297414036499981968025213508057296103887406278262884871%num;
  Sq 75203079832744726714070278701595350767005765745113343186607941559529946227%num;
  Sq 866898273125690287431605056593296084355278077077862540148723500193967807191%num;
  Sq 183830081805885911224848675241186877502289943439243177729387004425727136440%num;
  Sq 910225298331493620834948952050311257229668065102948764649521876979724776598%num;
  Sq 977295090753918858071843513044619544197049970855454278858846129357559524750%num;
  Sq 358893304445400526995330335972530368588358208254075407139980439605239418688%num;
  Sq 51734644819242657818200698454916972477467256395210680156292504811074304823%num;
  Sq 196804803267619779094481304507017024374888536022567136717539711646062059921%num;
  Sq 3592704464558031242469062140473078165625964971139115514576769463749805937804%num;
  Sq 43798976891188037171034612748633669920233023499738103382890390617165629804%num;
  Sq 620334542421158012975048721636921099615969992130344828636516802264393320551%num;
  Sq 3090862673205405767643146786701188555167548217458738257010939557454138254676%num;
  Sq 815848519273455126051780811370537718681424486885316840687802812853125392429%num;
  Sq 180127575401128408548510733681502367699066730990780029467873431156573727168%num;
  Sq 122705107603108788309390735540494911348257773117577055746516699869882347159%num;
  Sq 3050848126389807716378155116894230192565397181971719404992240301026550731432%num;
  Sq 2475829157524630743710746328458414274455787273994292523033110878168206180209%num;
  Sq 3283464863083534348891724819393509089229025246715377783767320258939863641%num;
  Sq 26663409218927267936483750221897234395791759647273182274591246664717780449%num;
  Sq 358999673161410125103150682623639453129246520357316830595930785394412605415%num;
  Sq 125847789683609230146502714118945756501400720724667210135783166247378347245%num;
  Sq 462742914337674867705179641555554448714858229680893110207648103902062891811%num;
  Sq 1100232189829255305449060216518520128116515996267107144247911909180678018554%num;
  Sq 129735781514345304079705514746937976666479291204593749801927261861568893218%num;
  Sq 294912785459349821354146147188989898568184862613074569134972053754738144493%num;
  Sq 1872234992165926334892606929237641821784030356465058796155810032409928151446%num;
  Sq 672207944838702547325337621627531911320550248628817766756132566714694379787%num;
  Sq 1269798450926700555560874367499306178667330930482237124640934421629405396682%num;
  Sq 2242080810373379822602160418774446932214500907852041135449290700991703236040%num;
  Sq 35589200351179368565052544805861028896595761962796484292913526423063945624%num;
  Sq 2818223678889228866706095424636611795022124234022260530715545489234651776432%num;
  Sq 3253732742264193722355812909591411029411004187650628473307493130632545913459%num;
  Sq 1578154130901770234778148591968432643637180918371936719352404036404174666010%num;
  Sq 2455474440079433747898760066138556971557973947281804593409579879603860297426%num;
  Sq 2878306846685867441269136944922970901425085042939862420141911427768182378591%num;
  Sq 50663635216681260176413338130907845316816579416305631460456214549652241315%num;
  Sq 2594713065175804949206284172756585085093120302295148378797439432797874320020%num;
  Sq 621624994936478846700984396376609690773617656439221406673571417150884368948%num;
  Sq 280369937051158740386547661611312911840416998343376651033903252051831026465%num;
  Sq 981284377529444331419267351551246899685690099902603763445699853099526855064%num;
  Sq 677443909317561089264811235573888742247072584978456795993651590517539294434%num;
  Sq 2286364922125375235432852567534969937326546977712121759719076868611118684%num;
  Sq 873392494016198527125434828021571636716070276515624494361823141343705972679%num;
  Sq 1100338202252574179683829141585430889095785473813677745719620699119957460259%num;
  Sq 439528881498383789754635530590984948851644517805095922658726532929148036725%num;
  Sq 1394514021525571285576543201977138437084651791078320111860759264921448519429%num;
  Sq 1704329866582158418324766141865996079057870059381989833733528524193796648490%num;
  Sq 900627671084628447268731003375509366339814626423932641838676519570539381580%num;
  Sq 26573945630304544237954590476626488727790885701396299399446238724747396764%num;
  Sq 880747518071531578541621334800497792477193825117188706382061568213433635934%num;
  Sq 1489799101632909785739177139807289220936980381598874102979929298556787383022%num;
  Sq 2113684492519582448413983159348994817834105830767077983196762427942110305466%num;
  Sq 1173160010187042310544687341153312296054786526290027606680931649232029585506%num;
  Sq 1713993925329114645251583487007630028858915192798135982108668112545151113548%num;
  Sq 2122121574321232461469700169503397050320412024717074589916227917552920741781%num;
  Sq 444840172510607898965703980509443457921838308771032144127735017458488626359%num;
  Sq 1069855091882544772335260649154789972315996084723209417812132327855028130989%num;
  Sq 1280053957134064359093159468823752940606985766014565695354788662615593948680%num;
  Sq 1663450717420163624191776914005356748409525520065495439775850025856486864767%num;
  Sq 1040613498428511979308911168106704807530657246037231774448050113205608502795%num;
  Sq 888778907567145198816849635641729407597946459644057344030956143695568884439%num;
  Sq 2409684452458272593408152588644819563630340887309121214303303196037781977777%num;
  Sq 1061776104719056584838786733646980972582937957003058251901498967344592751752%num;
  Sq 422142324383855713443105962255156295443724736216122614698119255992376663781%num;
  Sq 1944567467204715265789592416295846835809271567124080613829410631084250927169%num;
  Sq 531570275583745001146630915260592878105725098596329423360620131235923604219%num;
  Sq 277941814427235558369202604828439430134966651723880102724690661999740099913%num;
  Sq 93459032899022042310609194346264441816024952018407539061013156423693681633%num;
  Sq 1354685933486562870446087606685065679986621511192569337714367539630726367826%num;
  Sq 123791871036267361644720572804797877863798005026906928641543719683495600361%num;
  Sq 1273696662963229472711167129768415663070247158948697301653826089360516490277%num;
  Sq 2788725948675818105951479659487389449933416922448112525686800776945134088593%num;
  Sq 1250199854279658011591912554649797950828932450669677395116691513378030581232%num;
  Save;
  Load 1;
  Sq 5873465420017272395251484166676124442388504876460944975446804695026136624%num;
  Sq 43538611531474307049448278414537538475456951159931048162233923112865233060%num;
  Sq 1819185041537345917256170806756285461976650820128176346843974699910850846337%num;
  Sq 2894579646337071857266710239533346698814205153280926590193143615371912941500%num;
  Sq 3129552244743578918814121095368876532708005804402151245619026509531998225231%num;
  Sq 655923817245755338044544703003200936429299102337582442064750099242806005680%num;
  Sq 2116258390750188845014289737762678001740833205894067103072233768871633662361%num;
  Sq 1486758278430577257389885188791477675727772909164990568279251732574879255503%num;
  Sq 269912345699243591120168410356029321773304830189143339582643581624243830208%num;
  Sq 271234943994464775276067747018420196366696808808081448586528394364072497828%num;
  Sq 3050574815634234736933107249642281079380581791716217886247123364725556041185%num;
  Sq 253126137329167239427223469749191891102468482924383407712247910861406867812%num;
  Sq 319326132093729741177941205669059899308797482093642643571419737665064541563%num;
  Sq 537324987158827206621698410046280555502215965505334602286681938830509031749%num;
  Sq 423388907044175224529674319012706275040185648465859831958688709957314030419%num;
  Sq 714779105010939500646302203235643667702339320545688027720763211977291150520%num;
  Sq 1262676002541000568636465442645449124154056759382360259823491524724815173642%num;
  Sq 336506737311689312814618198373481759863837455725794341933284245070172383927%num;
  Sq 2421126564342235247376698195201807800147996977162158255940319785877202484708%num;
  Sq 2051243175083318823579257897434209966431106761000890185404090984390286291859%num;
  Sq 674728508071610521094782467652279856647781289132204068510439064232748225339%num;
  Sq 845435698342709331870433590570457529011711715381677073605448478753037444047%num;
  Sq 2497117258144305408367502861426778682036270995796637339136496810081071464900%num;
  Sq 37698411809462433007765150351472615136744093620503968997430755661583139852%num;
  Sq 294160301883617086141958398780235753560140448189771433257894119864993183055%num;
  Sq 44570140461411390591447967846587976092228520407953551334801376329147576252%num;
  Sq 2023403543970035847908690590401163352473129111297822090348483445755560012532%num;
  Sq 6508395218814356284574454445369219220468898245078068960194943856689179419%num;
  Sq 3444229297140889587021830851441153008933045019130751195689251761339518298701%num;
  Sq 51574008069738543022407680818363791260239512218891816061963247276441037258%num;
  Sq 1351768176353032948033044719969438894245338382508206833231008923176390962429%num;
  Sq 1607357020487925430728945061454535944412418741003355455132657237908880646796%num;
  Sq 1389244103745675706639613243493766941193923529180699626993719450875242821191%num;
  Sq 3583142310429123699087210015561163408710104486252118632953495675213623062842%num;
  Sq 933137237101541408082148787887331893902574649561003692082370597188485515707%num;
  Sq 198183554994572019054086835921692230674452314945488188401980748463146155138%num;
  Sq 489858901477897938579916915655441171727557307690319640616926498293383424903%num;
  Sq 163256897089942478706804869613180358881697073170563602257377502207987128636%num;
  Sq 850453053012899999266819973658997307378648289613447019352839234751528255801%num;
  Sq 265326765043352850199626316511056229889995056701819011010511777032039032093%num;
  Sq 1479930412651749660827535291900665322644283197355983942770351167954633860098%num;
  Sq 2446279323592799275828399125377258017213577775332623355729685395662392247369%num;
  Sq 39170799676957440865268562903644827312705650886592666515209294869990987260%num;
  Sq 104701771650321715601551386333738638550562174316274135958288044306455350463%num;
  Sq 3201814589301844521019502728812312087094657673941725332383255033039341855592%num;
  Sq 1522835604651922252900184185749383366342347597770599791488426548278963581040%num;
  Sq 1263708988177573009122405050405166420962245769461232238998809104072905756202%num;
  Sq 299272646800881667313014104771304675402003836680972918746987115846699831082%num;
  Sq 1900214362189462413644000401514070851430356114951832789306579466071246353541%num;
  Sq 52925576301744429007189301006244941183648016487553893993635766628688079523%num;
  Sq 412468024045257617946855147462465874511398003148969342063399751528683519482%num;
  Sq 3374872785048174535537139934691418509931404737469868566260589473267516388463%num;
  Sq 3250029108411069234449652467879456863373552009617854612751245810836908195800%num;
  Sq 2170370171589265764417697322497707778695888358818237092941339417312997985375%num;
  Sq 3543245234013010893421818347931003431625865078801903964583401415408888220778%num;
  Sq 1519003159852131802124268501577092509928484191526870368276189874008709603924%num;
  Sq 2166257443997779235036647984861665665883383371880907622512354381859148643010%num;
  Sq 687167336170443037933817715284714001362804594758024979629120421094094432831%num;
  Sq 594228566446698941099193686565002815830624308717577532667682280297226353554%num;
  Sq 537294874286657676371258516908958500096402947092770995105684591664663583340%num;
  Sq 43896226987857442133011815148018709100572582219296993730799363349376569977%num;
  Sq 957294831129958150571083461710598394881446396200750023627605972425182300770%num;
  Sq 46944595176273834265471850866264845172722939998009809196815079071675390723%num;
  Sq 729766189882681486242747816690054846989933615550997045331249666072135628266%num;
  Sq 6493732605985206859991537239537455172462533762003598058378775088340256385%num;
  Sq 1820370974821046034750643831517432195426916812607997912542466966419074180319%num;
  Sq 1748708504788541580268839630430459662515720727037371280711097432922314456779%num;
  Sq 655455282077838323704704134705699403838292616736271242158508250883763188327%num;
  Sq 3713966402571167704834740865331240236009522278014143404150947278896763914%num;
  Sq 2165226362794881763374783781188087525385324274427577854041989057890869331660%num;
  Sq 1109232323283043205565166738539876470801700051525369236350061007940032502592%num;
  Sq 965330214904019652320167031597405565455479463869898213606866450052218228%num;
  Sq 1251563861947131489325524386576607514372107708018491438558851883104162620434%num;
  Sq 590689639600235189552393884489583735190979059536121024396364204302001189680%num;
  Sq 3261796315748823058085219637867605323542635323578763745211153312534640556429%num;
  Sq 16057035069019736969922663341878296397500856540161010658550707081848861670%num;
  Sq 113688789290756922712745043743775440326675438808644320355688283771585783818%num;
  Sq 17108521682835057356683148465751419536812031311330173508452779055694000423%num;
  Sq 1546968387254780769038521917708373748058327949618227256218731886228420533141%num;
  Sq 1311960612054562286619432895153684244435423561664311949674209069097333159923%num;
  Sq 985019608430609510999514341874740011170330579009895411550963886411662604838%num;
  Sq 943208486721617752497657911382194061195571254202466427032371757560941273969%num;
  Sq 24532610173161242307988754043640971656461709009633289122941270818877369643%num;
  Sq 312921866358813660578143788571337902806746101217392083437183497379451830880%num;
  Sq 3023249516470268356049525002391834307223032237716555569688812933108907071495%num;
  Sq 1933790486438058495956623459845197566160532300375456011480083834427590813598%num;
  Sq 1441344538671165693195955530917414217214343921221294315110534519527487146178%num;
  Sq 2567275732653619928345902673940771900411769578211361750334405696623343180265%num;
  Sq 3237663816634813466280667836133047386858997870107734810302557097620872248190%num;
  Sq 1273446259864325206517431621778113407634987400116803225229568129115007450171%num;
  Sq 62491306504636376280291435808592144710190500536663638911051200990398389932%num;
  Sq 34988515679210167152121467427395584978759030191734360610920591639362491424%num;
  Sq 644239006456950816905800307970837265322064209761269424104761283709476234027%num;
  Sq 7881756584318501041813695759307282263902488772073005539032129995842668979%num;
  Sq 2320533346359210790125183540180610607361685292995831667036031988509362944575%num;
  Sq 1283310498638052978491702451061413278826841666946361264725465070187088913771%num;
  Sq 149035059775137962482760239050741563984026405392883835786843834716640689697%num;
  Sq 3317530344826199946069145596393789818796285906701287208879177616703643095199%num;
  Sq 287209385027682591988783219803307761358071371242006231264682428969213694740%num;
  Sq 50374988364019223268035102541650348081933379387727393519855610861412300978%num;
  Sq 1973712962792674082021729742063377373327307513080541279987013904907541936679%num;
  Sq 121555944896116510375645597869514935817368894324896948988952769505818976353%num;
  Sq 2093105424036330952428090363253433280230578756925766049188010047169389078723%num;
  Sq 101405991843385408210578401883594402852035926733299134289674021335731296526%num;
  Sq 677387531819143362112794319426487025386476647607050573183312035401818181508%num;
  Sq 1850765518229439362660806973707516995337600523319944669829539751631840280386%num;
  Sq 1706139326228663909871304102450443888345424091493590410548755684944083909292%num;
  Sq 772316683472873057887552109239470151887335345558922080203183982526187989174%num;
  Sq 533502224939312706297230814253122792353646776325680787477942339330795517848%num;
  Sq 4858542589219067311529307396858610691870440963901246318734771921863254544%num;
  Sq 2439248390520703325093081544200277118510669554046030167776177202891710551694%num;
  Sq 107665031108974967455241910734279282905604345406150556351274932542788249505%num;
  Sq 2138022905037942951846365258462001305762120163439855300289896940789000450749%num;
  Sq 177768248352743284998050263922808176897227001367804337156105778448215805407%num;
  Sq 1944936462823961429720924309913697556139115115806468130728471883665939191608%num;
  Sq 1018031753528442967060888023416408796642693362127654685880302408554810213%num;
  Sq 2474398033331829401954284730697502519251663929261392345757200585464193528226%num;
  Sq 1387488040114374522059515962689895746193801615517275800380650053728636631421%num;
  Sq 826170082407838477118474062415618268746679851076984482123521399939749682839%num;
  Sq 3330697990494162806984538721126345230337818201674124040774780503717015261603%num;
  Sq 2827980779981401577278091875207794353123498505271564993830920707846176638280%num;
  Sq 518687267490256529586283916188651881947816674754233773542643218112297831267%num;
  Sq 29672141643496611592878692156570220986381266749709813037677712349706860388%num;
  Sq 107448516507313784493672368662954626165926998607935650929443478408661870781%num;
  Sq 81423671857794084735764095284863061424930566615834007423400113430211558086%num;
  Sq 918642896222618797231542303327103954704736451357663925157291216634852749%num;
  Sq 803774868749505080905348528590062767296527930220857713418415974693169425083%num;
  Sq 106385021401790952210883999787736076514488273027892863324648436809168245548%num;
  Sq 66021010753784358375029498168920993410255010323313789918765084499969077078%num;
  Sq 1755568943823040182608310628993392278181527479676612919057484978208218635644%num;
  Sq 785041656060855668515495765329322123490134297226544192117273080374247919354%num;
  Sq 833727234340470826829621257487708729405456955390776945411374596482327438489%num;
  Sq 3053452138017213476345518960356175650159908733950698860618029541114442559892%num;
  Sq 2863474927704799811201410307242273635539842222289053597667686014783251325925%num;
  Sq 726884839595490373773190136344658702330977718877364944416738499999243707091%num;
  Sq 53883104692337008885866842560579946878252781256432114325869643683162128744%num;
  Sq 92535479600709262068541237139243547123777636691105572018226622413572563999%num;
  Sq 664779489364635680987936256975345873405916922687429988110327459571794260426%num;
  Sq 3550048897197704272250741647322980273098883117963212720801634891180833453813%num;
  Sq 129833108345741146808598310554399823056765788854613063528329227507592056%num;
  Sq 1759211855853261094662712636368247548135918725725564435710405211327036784712%num;
  Sq 1764999082611753379066906146037730899413026284155172891894346832215415857216%num;
  Sq 233804932202481837016410849641100656075065976793080348574955723113624231264%num;
  Sq 368542985696247905045005832556674014043697901256919138503488619948662771572%num;
  Sq 522433467364091110308909774938704200921674641599678199966244910127932159345%num;
  Sq 18410184745758026104589196503710457800386209991412928319770386214441900604%num;
  Sq 3574376329645056603811164712936725755842882553658813188078592807472365399540%num;
  Sq 2008489741723217268203285988514103267759792945491306670102730610745883466638%num;
  Sq 959927886518776438366607582865563756481879819031531062556425552235058787655%num;
  Sq 433461764026168488444480331028061747823417240470576343965073543174931806625%num;
  Sq 737849558796804987805659514669363275954574258617585732540009112499297320267%num;
  Sq 342453020523757409822409105314094776669496095969787225753532762649644842524%num;
  Sq 2335240031410101918540158910806988998374791275675731045007950013040176885167%num;
  Sq 416998782291428983360093230587554475875177392361949985573431944420318317009%num;
  Sq 3136728610775201214822484270127202708762346899081514744820609511552507289660%num;
  Sq 56981636446004622462512923158566690759731969514240562870260304479974997780%num;
  Sq 2405625031886671229574560770019745963297939907312774239636666072866482520909%num;
  Sq 279867137970271840214681613198308748522069987930678982633320640044775146331%num;
  Sq 3378309055428938478145954554731865606030010169671325229105662193757542863484%num;
  Sq 111054672601921829034555977091320822430435797721633629889953697375141470894%num;
  Sq 1429421621257024610638523415241146247198418612069238533189544751913670431277%num;
  Sq 2064005921010953987663491050588043971115240610183080950418010978105539694429%num;
  Sq 266570828851126058710751495384664942429730565889760936337002507743197908308%num;
  Sq 1971959854279763778254458416370490609211454602022374304692881682353798374167%num;
  Sq 1696910297007309359404339962962393908953181635777660217832926482996826969186%num;
  Sq 212516807950310785254905116001844635492609278459671101549558355676202101150%num;
  Sq 836730671022167916142402742155746236977848375224738429152528657428181591693%num;
  Sq 2699463820334390957320633676399414540755501784462364792301494836841394082398%num;
  Sq 2852269799707237170962821766066540463268709533624672109758498103008881619932%num;
  Sq 58891148430336480195261754940447132545287825716897648765312479102911681269%num;
  Sq 856207716501414758940098085715763136910721885296405452980886867164148572993%num;
  Sq 216336375466760599636063938717840413451536981708706654004708624712443747361%num;
  Sq 1761077121280171459098538100125623798703249670066949271601927653763541469670%num;
  Sq 450141531359258238616316933027319197798789753314580283772100753515726061843%num;
  Sq 1126173303004339228534689672875587916985121195477946360281692757971640898424%num;
  Sq 2501989369261312576527009611592641199364600830635592112976358115082680172007%num;
  Sq 208347578242004057837389128550992549305569730566632881781197103193187370289%num;
  Sq 613620487928907254455961904531095857782983743725523822623407678532037812511%num;
  Sq 723295949759884036811137885867563111459525840627536780036932636969123879316%num;
  Sq 649753064450942975674429757187754771285799888473768034958997416073414102890%num;
  Sq 3218762124175103478753189579433226359849076883795227920981363907526068209%num;
  Sq 63500656321246179258967377659423939527309300331347622688855326716661865487%num;
  Sq 2280484294589433921014525865039026542855492525623108175855473238579042962902%num;
  Sq 70089372253426361223174500516504409519281676143598510963518519018807544626%num;
  Sq 34918108010549647139715481565283869684597015560871638477928776477780306850%num;
  Sq 215158052648205209607961820659475175982862537690948268279868471203603836%num;
  Sq 76069485713641261983392757436705844120892345831241232900846412886741083438%num;
  Sq 3212463320154563296143618356292117502263770410268563651327974518968168676608%num;
  Sq 1983467737406436330125155291563378208420531771267922186057212961087710894070%num;
  Sq 2173906633605845825705580223617800599616444714507425527486246530127708488886%num;
  Sq 2134672463463434546970383608880542745257528373816563453473374943425167971145%num;
  Save;
  Load 2;
  Sq 52382751456734662362076106203503689245811880982332626077651867717332740751%num;
  Sq 104019381964753767124082978623312973901994227664604871909870772695141093539%num;
  Sq 1537746557852974488875540714133499291521531017622005525421033421295312654320%num;
  Mul 2 279488872340429835903468130414504303859459431505413005179622206431940998022%num;
  Sq 290618258865697678547393674674460281934531910238920234989566508347987702364%num;
  Mul 2 191784539100837823125445506562612452691912653530562416284812898164167281910%num;
  Sq 2281191997699642553984388272244418499078773723704476450998409525230119676230%num;
  Mul 2 40737178331012209242998439119063551152916202452931205081283399999466856441%num;
  Sq 154365915604990676141958545246934733439447814784838910643328392570566331053%num;
  Mul 2 36910893571061450575324304292858847675604680293771492921876383471568457323%num;
  Sq 303381149717802021854215999160610010961235037982749586372582165178239471793%num;
  Mul 2 146437914333937131805847454368171989590745742374566892509522690621211086696%num;
  Sq 3365507270752321139501998389290800505743998613175169979086752474717724602431%num;
  Sq 3316336342989878519921534200624679894351187687443866035048138227917341837464%num;
  Sq 2907449827234309314038867314373585356536421213805088987314189222687161970205%num;
  Sq 23251364453003410301256094876457110679864040135397979504084349530751393287%num;
  Mul 2 95097213259104770025036224777518007527894161245666182580283226545205381800%num;
  Sq 37433903123911417358749749832874631539035422306186923833574925833509189220%num;
  Mul 2 346536102138904365029747893528773686236320373511098474886885141805021457261%num;
  Sq 926741789382078258904676405066661287537797625071791948250244613208358483129%num;
  Mul 2 266473611565597447097699375709206800697596242591116947570235723246914852700%num;
  Sq 272503489378721692375074135240639186041451980872778961412412923428698557132%num;
  Mul 2 431455777360724595772596002502757180766753329279608425223497829206861976791%num;
  Sq 298549217158956863205419058993044701879699605408276132225176511784113439629%num;
  Sq 2027189724539843090966735152289266828352480853777868823748901269646232389262%num;
  Sq 1504307748438624970435534183159135410525183970461493157857088366505677440182%num;
  Mul 2 313268858385185253700097466166562591642338007050454992550210970834360967549%num;
  Sq 52549775904659059072573764910666668571872133546312584390359574810715873881%num;
  Mul 2 12184016137236330460095650627931580413742620789524238898289553487480705359%num;
  Sq 1007406821205796330020749786876951508124797692676142585273435151736976305171%num;
  Sq 857388643518244386618404456438720243978727461960136344757771268367164884013%num;
  Sq 3603952784474384262621611862329721181754798806739501283901801568812719499531%num;
  Mul 2 344528281805921252127848097097315362149826250440979412154026192887686496558%num;
  Sq 24886345599545326223311234096092696173101363365728497161162831700359449579%num;
  Mul 2 361720433215176539057447984155449521977882581762897623295532294505069865880%num;
  Sq 3147719278707986250704822029238777962572994004095662181981034951808647077034%num;
  Sq 431370625014974676106317276293682470812430059699345694285572032598045372768%num;
  Sq 640292567789784013442405460692409865283806951318036011715300111529618959674%num;
  Mul 2 83034066085165070354558423544741806518417477802500706779472503633282461423%num;
  Sq 26768127873453998136048923424677221533951078622049319433061752264974626763%num;
  Mul 2 130953211430715496918950493374667666852149838345117717196291095062598454813%num;
  Sq 1474638462841058108041432636250137600356994897537878338763444721296671354903%num;
  Mul 2 390824740851918560342955085666470848775621566193678366801474890647963655298%num;
  Save;
  Load 2;
  Sq 52382751456734662362076106203503689245811880982332626077651867717332740751%num;
  Mul 2 73816132600826796907779084267375759163590057029460140297203425959367270595%num;
  Sq 67104524876695670302097874843664047606901931013885457911905921027066452113%num;
  Sq 1199404613136995858085799696716136695443722721186055952483397821890899598184%num;
  Sq 194296480372113750017232533497586982811370510150911667410052400207233933051%num;
  Mul 2 108992962487451038794258198163099565841218892110644894700666767292689625099%num;
  Sq 352212560154289125129307610202435636182472902228442852047317985155238697190%num;
  Mul 2 225921901773712063560012183808577831791942416640746006917960936481005623601%num;
  Sq 868537305495906495643006533168958330686029033231232652696085838163395808919%num;
  Sq 160609144003867490901228983483002216423786391523372571820946833729289213579%num;
  Mul 2 44270293462476517058365634693973519705261494567487819072915569360431376593%num;
  Sq 299406797635140363660041196787295663094961330122680140746076997886044518677%num;
  Mul 2 263916310234604133417933799088488557776505213011292334222844876781422894340%num;
  Sq 604656360492505121777218574085338969784765282104272584091999944136806386364%num;
  Mul 2 280232276746396624118322940434716819674904961624305692970679163523586112724%num;
  Sq 217419369064286354452165230754125936637091107722668468115785407075084113904%num;
  Mul 2 197417902776329302477124893945596102456324463340903079193672266621525680153%num;
  Sq 1134154063004411967648468939033540528163375035642826601432651769277290847330%num;
  Sq 1998734352342398413067032783647100593801353300866406609538421538817983894011%num;
  Mul 2 267229470694505575912562734833183711455372539037048540440470046529723094490%num;
  Sq 3538586868565664995762287542986685992687794304387582077869825799857476256241%num;
  Mul 2 31745909348862759763275793345341703802213784018177762204016510518520696163%num;
  Sq 2970674619517030517603964741368410614705657952106020699752590457468684115%num;
  Mul 2 391629198283990264059054023052879371095710370778760085359420137098534969576%num;
  Sq 1376901216245786440329760016121811615246318474130307905071527192432289964943%num;
  Mul 2 69640714842018272232711957427329437129300168067583782628133858844153498522%num;
  Sq 1072469524930406904081383114778047562929889905124006491119044131670044454786%num;
  Sq 1018669870496471340747023217821163289437457447518605259835954655258334952%num;
  Sq 615302901534295957301825050208192476797188637303158530146815679529809427416%num;
  Mul 2 297827664287914819941448107134800214400509924454889895272633770187444948148%num;
  Sq 1100158281375819214319477957210226936862272500992099683867243128177888011807%num;
  Sq 2413752495331827032844001643474406671990912857448312878587608486549518032908%num;
  Mul 2 266538387301449609518969101776193234756548650233588546854724780867297978272%num;
  Sq 58613065905233913488319871849535587267185840312658150039308328041054971503%num;
  Sq 2992370271199017030940045642000378231652877158627724892601000022408612954631%num;
  Mul 2 238849745189079772435825208928537562986628937189867699408242198168738000125%num;
  Sq 60408269450833626532353789773409300420741325889298287887475434968198011680%num;
  Sq 200104238758325842549880843896019143669460297883482600973120147767312419080%num;
  Mul 2 429086313986654506731326045358075609383309663010637208722814754874743033369%num;
  Sq 1268566207934025948637171021825683559665547428313112485526850176330284323907%num;
  Mul 2 334547026260781522558979465049852551790542163346512807861745923552545766406%num;
  Sq 363723759653676360450981168808170211427757697377506642290475820969914765444%num;
  Sq 938572809722022404813557621368832262626615607478870776322884106749162911285%num;
  Sq 598349573602809015194149996748749829647466151911080846366744713921132338294%num;
  Sq 1444798334261587627409019507405900523956449843524669430964060176554132471929%num;
  Mul 2 152562321818470953758618011517475874583926071983227166961690737899168833686%num;
  Sq 3301247281933731085564407977890693730823307626625589104700097254360114153487%num;
  Mul 2 308643534082453112081424774658636817870194064395236484572131190608985531276%num;
  Sq 77518892321663987243534539190976708625728286294294502952499425749265146578%num;
  Mul 2 429255738396473623621990335762610467051179077061220081351876110343409622691%num;
  Save;
  Load 4;
  Sq 53722355508563181514422221134935825195489652817135084290071091124228871967%num;
  Sq 1818867281507355395449245232456118602970803996405520713938845270499895452979%num;
  Mul 4 319173000962766370113399922756282682144360225208982351915633556826513662525%num;
  Sq 2915283981125037366689897245908399804391189075277740511693525599656442874530%num;
  Mul 4 24784717990211471082822628958200620806226128018557142607068187862992551518%num;
  Sq 281351037475644151799846581416771266325878209263026704153882428012052062733%num;
  Mul 4 178737052414476668534541864091675463427047545893124960576568837530125994069%num;
  Sq 847234176938883065157036404081132413233946697733312592518728461483097059086%num;
  Mul 4 119130910652283952389997825207746090620133720382339124037268858433221109214%num;
  Sq 856914258091754230632803235912322937816827265432140488231197976311260292160%num;
  Sq 1508800064626294473829296517738596250196094976937264963703926737284197769242%num;
  Sq 1475928333378625220843917624051638839907092973172237834674732711673832388112%num;
  Sq 312455467517762277254363522389835496364466316334243531377403683696558597160%num;
  Mul 4 207360585109367173781134267455071345842594177975651097332029055638206847482%num;
  Sq 2253992012238934942274956801907568546931302711354098764907624854045049726843%num;
  Sq 2306012474700992723854133390881212873723967388157073214583399586993782850208%num;
  Sq 6343958780014563829807461014543324673738968644369770186941605758425569709%num;
  Mul 4 14488070094302995283914134655244771686771417429570785577879616885061221308%num;
  Sq 2943779267475675495353148226725316153115451927228816089206848393445720844%num;
  Sq 1126242126324757976867435380222573838948358122122724122303799592027455897915%num;
  Sq 2952696231800268472433397314495413968334302379713777109285039240751035037955%num;
  Sq 2928119912764626819381362812827840516115036057007774996291799667941981490003%num;
  Sq 969932268087058227072804798282508699447172600096761476566157104570937627383%num;
  Mul 4 168828487107087921435240161135482507576385226984023289480685169911352286606%num;
  Sq 610950100806964774703071526284443416022478966100323622620321271222265846828%num;
  Mul 4 132586810767832338772676764235848634714668594625267531311425349062739305186%num;
  Sq 3213178136244816224377513597324598256857842890924837664749292184524534905837%num;
  Sq 1906824266216237289537262488880630954324100079843053429404526696965823560808%num;
  Sq 1115361659302756865338136705922645581313912949125022775497060974125517792670%num;
  Sq 612934237958605379086647254345964781199943471158464763394279641824749592308%num;
  Sq 11410058167160415801392630851817215857862107870876880677292746548219884195%num;
  Mul 4 63335685290310768157076957487320288771984434145499072972982905002693860934%num;
  Sq 4083675597629688545114794266820770341727342648727682286516406437002393714%num;
  Mul 4 86085577102065998644585208268804105234816372719411405247992401299394696406%num;
  Sq 1073210553317975013980528572373194071957329141964330425246472742988423034843%num;
  Sq 3350765609635305676699913272596995204895813647969483539807260014010365679152%num;
  Mul 4 192744301479460112500239988675736684397239249080939805930787771107043741411%num;
  Save;
  Load 4;
  Sq 53722355508563181514422221134935825195489652817135084290071091124228871967%num;
  Sq 1818867281507355395449245232456118602970803996405520713938845270499895452979%num;
  Sq 1896257220652584145251144154845107506753006255584752940068537182362401228588%num;
  Sq 12780439121086988512769136011030080381518340566845361019778620445386768613%num;
  Mul 4 34973464801413358310288423278423649764978651429075139263367139216548933385%num;
  Sq 1670211360563272845578668385889959596282758195070459682719627628049197267310%num;
  Mul 4 52376553423297586950168614867840301894254150004336222460939914152881218122%num;
  Save;
  Load 6;
  Sq 2282893102349192617823244829425121967791322445378854048143678731913625268834%num;
  Mul 6 2819783756238901082367662639779400849431852101312182035884405186604043585018%num;
  Sq 513161025890545657923635770673065600586652588427099846881466453268332627362%num;
  Mul 6 1801711201927688264423248087350547064891978855074392102443222368270076528814%num;
  Save;
  Load 6;
  Sq 2282893102349192617823244829425121967791322445378854048143678731913625268834%num;
  Sq 3482940319792752727310496362384384887895978645906339823443234359178822707814%num;
  Mul 6 1571115556041721884046276407425826263518233709149143995213780033179405488901%num;
  Save;
  Load 8;
  Save;
  Load 9;
  Save;
  Load 7;
  Save;
  Load 5;
  Save;
  Load 3;
  Save;
  Load 10;
  Save;
  Load 11;
  Save;
  Load 12;
  Save;
  Load 13;
  Save;
  Load 3;
  Sq 3618502788666131213697322783095070105623107215331596699973092056135872020479%num;
  Save].
Definition fr251_invs : seq (N * N) := [::
  (1809251394333065606848661391547535052811553607665798349986546028067936010240, 1809251394333065606848661391547535052811553607665798349986546028067936010239)%num;
  (2416945965898405943568421851719353144938019094922177939045123437378657090918, 2210189469549182516697835893694712420438268202237681472293578169900639077459)%num;
  (1972987826348505832545620692584386436095996563298449884747782720765663359499, 1009540959476841604476108756219504784385626885970942823204623576810475800256)%num;
  (1313972663060583443016658865521407085734327052672050526694932739437533884949, 164747791654988904010687973946598979831399242879257358339377297268598426650)%num;
  (3310507239501125312231519405743110919841242774270963052361530571701875759667, 1104308391476314856329811981813643213977919483002531790328095781330174768499)%num].
Definition fr251_factors : seq (N * nat) := [:: (2%num, 192%N);  (5%num, 1%N);  (7%num, 1%N);  (98714381%num, 1%N);  (166848103%num, 1%N)].

(** PrimeFieldModulus, src/bn256.rs:5. *)
Definition P255 : N := 52435875175126190479447740508185965837690552500527637822603658699938581184513%num.

Lemma fr255_cert : lehmer P255 7 fr255_factors fr255_prog fr255_invs = true.
Proof. vm_cast_no_check (erefl true). Qed.
Lemma fr251_cert : lehmer P251 3 fr251_factors fr251_prog fr251_invs = true.
Proof. vm_cast_no_check (erefl true). Qed.

Lemma fr255_primes : all (fun x => prime (N.to_nat x.1)) fr255_factors.
Proof.
do 4 (apply: all_cons; first by vm_compute).
apply: all_cons; first exact: prime_10177.
apply: all_cons; first exact: prime_125527.
apply: all_cons; first exact: prime_859267.
apply: all_cons; first exact: prime_906349.
apply: all_cons; first exact: prime_2508409.
apply: all_cons; first exact: prime_2529403.
apply: all_cons; first exact: prime_52437899.
apply: all_cons; first exact: prime_254760293.
by [].
Qed.
Lemma fr251_primes : all (fun x => prime (N.to_nat x.1)) fr251_factors.
Proof.
do 3 (apply: all_cons; first by vm_compute).
apply: all_cons; first exact: prime_98714381.
apply: all_cons; first exact: prime_166848103.
by [].
Qed.

(** The modulus as a natural number; sealed, so that nothing tries to compute it in unary. *)
Lemma p255_sig : {p : nat | p = N.to_nat P255}. Proof. by exists (N.to_nat P255). Qed.
Definition p255 : nat := proj1_sig p255_sig.
Lemma p255E : p255 = N.to_nat P255. Proof. exact: proj2_sig p255_sig. Qed.
Notation F255 := [fieldType of 'F_p255].

Theorem p255_prime : prime p255.
Proof. by rewrite p255E; exact: lehmer_prime fr255_primes fr255_cert. Qed.

(** * The constants that the derive macro generates for this field *)
(** The representation in memory is Montgomery's: x * 2^256 modulo p. *)
Definition t255 : N := 12208678567578594777604504606729831043093128246378069236549469339647%num.
Definition mont255 (x : 'F_p255) : 'F_p255 := x * 2%:R ^+ 256.
Definition f255 : ff_params F255 :=
  @FFParams F255 32 (7%:R ^+ N.to_nat t255) 7%:R 255 254 4 P255
    (fun x : 'F_p255 => N.of_nat x) (fun x => N.of_nat (mont255 x)).

Lemma f255_constants : ff_constants f255.
Proof. by split. Qed.

Lemma f255_declared : declared P255 7 f255.
Proof.
apply: (certified fr255_primes fr255_cert (t := t255)).
- exact: erefl.
- exact: Fp_onto.
- exact: Fp_residue p255_prime p255E.
- exact: Fp_zero p255_prime p255E.
- exact: erefl.
- by rewrite -[ff_S _]/32%N; vm_compute.
- rewrite /f255 /ff_rou /ff_gen; reflexivity.
- exact: f255_constants.
Qed.

Lemma f251_declared : declared P251 3 f251.
Proof.
apply: (certified fr251_primes fr251_cert (t := 2 ^ 59 + 17)).
- exact: erefl.
- exact: Fp_onto.
- exact: Fp_residue p251_prime p251E.
- exact: Fp_zero p251_prime p251E.
- exact: erefl.
- by rewrite -[ff_S _]/192%N; vm_compute.
- rewrite /f251 /ff_rou /ff_gen; reflexivity.
- exact: f251_constants.
Qed.

Lemma f255_repr_ok : ff_repr_ok f255.
Proof.
have Hp := p255_prime.
have Hlt (x : 'F_p255) : (N.of_nat x < P255)%num.
  have /ltP : (x < p255)%N by rewrite -{2}(Fp_cast Hp) ltn_ord.
  by move: (nat_of_ord x) => y; rewrite p255E; clear; lia.
split; [| | | by [] | by []].
- split=> [x|r x]; rewrite /from_repr [ff_modulus _]/= [ff_repr _]/=.
    by rewrite (_ : (_ <? _)%num = true) ?Nnat.Nat2N.id ?natr_Zp //; apply/N.ltb_lt.
  case: N.ltb_spec => // Hr [<-].
  have Hr' : (N.to_nat r < p255)%N by rewrite p255E; exact: to_nat_lt.
  by rewrite val_Fp_nat // modn_small // Nnat.N2Nat.id.
- have N2 : (2%:R : 'F_p255) != 0.
    have [_ _ H2] := declared_ok f255_declared; exact: H2.
  have Hi : injective mont255 by apply: mulIf; rewrite expf_neq0.
  by move=> x y /Nnat.Nat2N.inj E; apply: Hi; apply: val_inj.
- by move=> x; apply: N.lt_trans (Hlt _) _.
Qed.

Lemma f257_declared : declared 257 3 f257.
Proof.
have Hp : prime 257 by [].
have EP : 257%N = N.to_nat 257 by [].
split.
- by [].
- by [].
- by move=> x; exists (zv x); apply: z_in_inj; rewrite z_in_nat.
- move=> n; rewrite [ff_repr _]/=; apply: Nnat.N2Nat.inj.
  rewrite -/(z257_nat _) -z_inE z_in_nat -(Fp_residue Hp EP).
  by rewrite Nnat.Nat2N.id.
- by [].
- have H0 : 257%:R = 0 :> F257 by apply: val_inj; vm_compute.
  move=> x Hx; apply: (prim_all Hp H0 _ _ Hx).
    by move=> y; exists (z257_nat y); apply: z_in_inj; rewrite z_in_nat.
  by have [H _ _] := f257_ok.
- exists 1%num; split; [by [] | by [] | by rewrite expr1].
- by split.
Qed.
