(** The prime field of src/experiments/mod.rs:18-21,
    p = 2^251 + 17 * 2^192 + 1, is a field: Proth's primality test. *)
From Coq Require Import NArith Lia.
From mathcomp Require Import all_ssreflect all_algebra.
From Verif Require Import M_Base M_Field M_Bytes SpecHash Instances.

Set Implicit Arguments.
Unset Strict Implicit.
Unset Printing Implicit Defensive.
Import GRing.Theory.
Local Open Scope ring_scope.

(** PrimeFieldModulus, src/experiments/mod.rs:19. *)
Definition P251 : N := 3618502788666131213697322783095070105623107215331596699973092056135872020481%num.

(** * Proth's theorem *)
Lemma Fp_fermat p (x : 'F_p) : prime p -> x ^+ p = x.
Proof.
move=> Hp; rewrite -[x]natr_Zp -(Frobenius_autE (char_Fp Hp)).
exact: Frobenius_aut_nat.
Qed.

Lemma proth (k n a p : nat) : p = (k * 2 ^ n.+1 + 1)%N -> (0 < k < 2 ^ n.+1)%N ->
  (a ^ (k * 2 ^ n) = p.-1 %[mod p])%N -> prime p.
Proof.
move=> Ep /andP[Hk0 Hk] Ha.
have Hp1 : (1 < p)%N by rewrite Ep addn1 ltnS muln_gt0 Hk0 expn_gt0.
have Hp0 : (0 < p)%N by apply: ltnW.
apply: ltn_pdiv2_prime => //; set q := pdiv p.
have Hq : prime q by rewrite /q pdiv_prime.
have Hqp : (q %| p)%N by exact: pdiv_dvd.
have Hch := char_Fp Hq.
have H2 : (2%:R : 'F_q) != 0.
  rewrite -(dvdn_charf Hch); apply/negP => H2.
  have Hodd : odd p by rewrite Ep addn1 /= oddM oddX /= andbF.
  have E : q = 2%N by apply/eqP; rewrite -dvdn_prime2.
  by have := dvdn_odd Hqp Hodd; rewrite E.
have E1 : ((a%:R : 'F_q) ^+ k) ^+ (2 ^ n) = -1.
  rewrite -exprM -natrX; apply/eqP; rewrite -subr_eq0 opprK -[X in _ + X](mulr1n 1) -natrD -(dvdn_charf Hch).
  apply: (dvdn_trans Hqp); rewrite addn1.
  have : (a ^ (k * 2 ^ n)).+1 = p.-1.+1 %[mod p] by rewrite -addn1 -[p.-1.+1]addn1 -modnDml Ha modnDml.
  by rewrite (prednK Hp0) modnn => /eqP.
have Hprim := prim_pow2 H2 E1.
have Hx0 : (a%:R : 'F_q) ^+ k != 0.
  apply/eqP => E; have : (-1 : 'F_q) == 0 by rewrite -E1 E expr0n expn_eq0.
  by rewrite oppr_eq0 oner_eq0.
have Hd : (2 ^ n.+1 %| q.-1)%N.
  rewrite (prim_order_dvd Hprim); apply/eqP; apply: (mulfI Hx0).
  by rewrite mulr1 -exprS prednK ?prime_gt0 // Fp_fermat.
have Hq1 : (0 < q.-1)%N by rewrite -subn1 subn_gt0 prime_gt1.
have Hle := dvdn_leq Hq1 Hd.
have Hlt : (2 ^ n.+1 < q)%N by rewrite -[q]prednK ?prime_gt0 // ltnS.
rewrite Ep addn1; apply: (@leq_ltn_trans (2 ^ n.+1 * 2 ^ n.+1)%N).
  by rewrite ltn_mul2r expn_gt0.
by rewrite -mulnn; apply: ltn_mul.
Qed.

(** * The powers of 3 modulo p, with the quotients as a certificate *)
Lemma to_natM a b : N.to_nat (a * b)%num = (N.to_nat a * N.to_nat b)%N.
Proof. exact: N2Nat.inj_mul. Qed.
Lemma to_natD a b : N.to_nat (a + b)%num = (N.to_nat a + N.to_nat b)%N.
Proof. exact: N2Nat.inj_add. Qed.

Lemma to_nat_lt a b : (a < b)%num -> (N.to_nat a < N.to_nat b)%N.
Proof. by move=> H; apply/ltP; lia. Qed.

Section Cert.
Variable P : N.
Local Notation p := (N.to_nat P).

Definition square_step (x : N) (step : bool * N) : option N :=
  let y := N.square x in
  let y := if step.1 then (3 * y)%num else y in
  let m := (P * step.2)%num in
  if (m <=? y)%num then Some (y - m)%num else None.

Fixpoint run (x e : N) (steps : seq (bool * N)) : option (N * N) :=
  if steps is step :: rest then
    if square_step x step is Some x' then
      run x' (if step.1 then 2 * e + 1 else 2 * e)%num rest
    else None
  else Some (x, e).

Lemma square_stepP x step x' e : square_step x step = Some x' ->
  (N.to_nat x = 3 ^ N.to_nat e %[mod p])%N ->
  (N.to_nat x' = 3 ^ N.to_nat (if step.1 then 2 * e + 1 else 2 * e)%num %[mod p])%N.
Proof.
rewrite /square_step; case: step => b q; rewrite [fst _]/= [snd _]/=; case: N.leb_spec0 => // Hle -[<-] Hx.
have Hsq : (N.to_nat (N.square x) = 3 ^ (2 * N.to_nat e) %[mod p])%N.
  rewrite N.square_spec to_natM mulnC expnM -mulnn.
  by rewrite -[LHS]modnMm Hx modnMm.
have Hsub y : (P * q <= y)%num -> (N.to_nat (y - P * q)%num = N.to_nat y %[mod p])%N.
  move=> H; rewrite -[in RHS](N.sub_add (P * q)%num y) // to_natD to_natM.
  by rewrite mulnC addnC modnMDl.
case: b Hle => Hle; rewrite (Hsub _ Hle); last by rewrite to_natM.
rewrite (to_natM 3) (to_natD (2 * e)) (to_natM 2) addn1 expnS.
by rewrite -[LHS]modnMmr Hsq modnMmr.
Qed.

Lemma runP steps x e x' e' : run x e steps = Some (x', e') ->
  (N.to_nat x = 3 ^ N.to_nat e %[mod p])%N -> (N.to_nat x' = 3 ^ N.to_nat e' %[mod p])%N.
Proof.
elim: steps x e => [|step steps IH] x e /= => [[<- <-] //|].
by case E : (square_step x step) => [y|] // /IH H Hx; apply: H; apply: square_stepP E Hx.
Qed.


(** The certificate proves 3^e = -1. *)
Definition cert_ok (e : N) (steps : seq (bool * N)) : bool :=
  if run 3 1 steps is Some (x, e') then (x =? P - 1)%num && (e' =? e)%num else false.

Lemma cert_okP e steps : cert_ok e steps -> (3 ^ N.to_nat e = p.-1 %[mod p])%N.
Proof.
rewrite /cert_ok; case E : (run _ _ _) => [[x e']|] // /andP[/N.eqb_spec Ex /N.eqb_spec Ee].
by have := runP E erefl; rewrite Ex Ee (N2Nat.inj_sub P 1) minusE (_ : N.to_nat 1 = 1%N) // subn1 => <-.
Qed.

Lemma to_natX a b : N.to_nat (a ^ b)%num = (N.to_nat a ^ N.to_nat b)%N.
Proof.
elim/N.peano_ind: b => [|b IH]; first by rewrite N.pow_0_r.
by rewrite N.pow_succ_r' to_natM IH N2Nat.inj_succ expnS.
Qed.

Lemma proth_cert K n steps :
  (P =? K * 2 ^ (N.succ n) + 1)%num -> (0 <? K)%num && (K <? 2 ^ (N.succ n))%num ->
  cert_ok (K * 2 ^ n) steps -> prime p.
Proof.
move=> /N.eqb_spec EP /andP[/N.ltb_spec0 K0 /N.ltb_spec0 K1] /cert_okP H.
apply: (@proth (N.to_nat K) (N.to_nat n) 3); last by rewrite -H to_natM to_natX.
  by rewrite EP to_natD to_natM to_natX N2Nat.inj_succ.
rewrite (to_nat_lt K0) /=.
by have := to_nat_lt K1; rewrite to_natX N2Nat.inj_succ.
Qed.

(** Equalities in the field are congruences modulo p. *)
Lemma Fp_congr (a b : N) : prime p -> ((a mod P) =? (b mod P))%num ->
  (N.to_nat a)%:R = (N.to_nat b)%:R :> 'F_p.
Proof.
move=> Hp /N.eqb_spec E.
have P0 : P <> 0%num by move=> P0; move: Hp; rewrite P0.
have H (c : N) : (N.to_nat c)%:R = (N.to_nat (c mod P))%:R :> 'F_p.
  rewrite {1}(N.div_mod c P P0) to_natD to_natM natrD natrM.
  by rewrite (charf0 (char_Fp Hp)) mul0r add0r.
by rewrite H [RHS]H E.
Qed.

Lemma Fp_minus_one e : prime p -> (3 ^ e = p.-1 %[mod p])%N -> (3%:R : 'F_p) ^+ e = -1.
Proof.
move=> Hp H; have Hp0 := prime_gt0 Hp.
rewrite -natrX -[LHS](Fp_nat_mod Hp) H (Fp_nat_mod Hp).
by rewrite -subn1 natrB // (charf0 (char_Fp Hp)) sub0r.
Qed.
End Cert.

Definition certificate : seq (bool * N) := [::
  (false, 0%num);
  (false, 0%num);
  (false, 0%num);
  (false, 0%num);
  (false, 0%num);
  (false, 0%num);
  (false, 0%num);
  (false, 38416013609978909043060177871130708577526950618%num);
  (false, 349481090728099293556540606158555763002238962454140325494413591334349977407%num);
  (false, 94063831062019017262710840291794234924752909377436760443379794717463532470%num);
  (false, 116119558472433550729359070389892233842237856039881399087352647501406827473%num);
  (false, 748115168514526081917172719383845137459816361056523870467816222293951326090%num);
  (false, 3567766638950341984762996702634639000785193052913521974307967745219916818765%num);
  (false, 3170844049793215755239950172691618931684554602584804837949286296487390484048%num);
  (false, 358570765536989151185373229755282080583162549956700407533902998308389654226%num);
  (false, 539295776346260494269816202372670665910943992833902845948138529066829799365%num);
  (false, 189415993068727856013016620519314169591973576074967528207797749503945319279%num);
  (false, 1671659918433953822828044766647231190313639161693429049908094224811361312073%num);
  (false, 152998456655200521133360733756232905754482207828131893572711621907286610819%num);
  (false, 1024920143232755474309445576691747285465223433617149354267648354853330750828%num);
  (false, 3457672460811302462076743004935527368366277540419179664474665800985165283004%num);
  (false, 11232666811707474539817674496930398882126224264811408761471993014549292600%num);
  (false, 2846749528347328272640195470304645056908642419937857077635845828165202593001%num);
  (false, 2004256737975072945683791928179442754218826533809226019163994728130102274701%num);
  (false, 630032670305998513629575042259130359304943330531186742276660488090875016447%num);
  (false, 3519717875001774499997691059211090996193813113512921942765974345745574508755%num);
  (false, 919033497333587347073264589435562151001830485961433720853611445233756046341%num);
  (false, 2086751192153417885780154008391735711668657652591009151109308894219696024908%num);
  (false, 28195416012932114931544175466869946302048129624040536762849244408026125065%num);
  (false, 769437182247538364980337339596428271129128184053186118500144122230760200108%num);
  (false, 1885116452812854939214381517000453267084910021348085493036150232000702094231%num);
  (false, 1298194002606958359800266214448627474303430944999222759269880123735216679140%num);
  (false, 2301783088924998991381924199573272822913729160494870551680220030972990867009%num);
  (false, 476631009632174349108611760286679973297162230707406028439805742793956712871%num);
  (false, 1393197516204269341044038871453274537700401570802566246765729119925503866468%num);
  (false, 681085701831256968854378534708061617823306643032016123107583083139911690451%num);
  (false, 1631468183078660754467977675547026667957566616312087121546579228065325249649%num);
  (false, 3332949634973116557870574125538574844284939014721305662750938551109162408498%num);
  (false, 253101386178662482264922071293170685632796992711027264782172456847810717035%num);
  (false, 363177935394725416518397877842585637574863348262741194781688495665401547392%num);
  (false, 1506511226498630761110489555773939558783566021143834212714259131644789265257%num);
  (false, 1994850867671837791935272199164534767865728904873674155078940856819967250631%num);
  (false, 50499507753574381310390681034319139854094967063161019402204248733171605536%num);
  (false, 1202548149048000628569232816664571115922102016907959783555555243385822854977%num);
  (false, 2991511304249380719176358835029870414527776079053406230905095534760128160034%num);
  (false, 2049098633496736571459001311657359945122046937148896654404141013572031919169%num);
  (false, 1677920904372968680176753853440613030126873781966794920196442401866722110207%num);
  (false, 1124669054942374805728571582030084615508574222847787968831397667552489728752%num);
  (false, 647534103429037405922222230834734612202032869311215972100253901063272773561%num);
  (false, 2638797402355198181989603843027649889114132393421963428403099735245616146453%num);
  (false, 1724570292206869381012824620194813975042305962468831978742739427122303829847%num);
  (false, 511326016581160197749843158883717927021783691954206918261626941249250025701%num);
  (false, 757251769473623012985921936825763740857705558247733637852313769870577080381%num);
  (false, 2289634282735831600760813335128898409071199802164663050428042895247921202258%num);
  (true, 1076823072688612445156902604271109954177978194787655227176535517392078186584%num);
  (false, 2905866928292993493083103123207329082955560863312767004704270868541023022104%num);
  (false, 1762714259704158728920374693080301291350629085306604396253409126978718355476%num);
  (false, 831642908186902946592720961782595463048181577858462489070182865522137987115%num);
  (true, 618321589610385762849743093166422220477692348732578944819913659742652919%num);
  (false, 5873465420017272395251484166676124442388504876460944975446804695026136624%num);
  (false, 43538611531474307049448278414537538475456951159931048162233923112865233060%num);
  (false, 1819185041537345917256170806756285461976650820128176346843974699910850846337%num);
  (false, 2894579646337071857266710239533346698814205153280926590193143615371912941500%num);
  (false, 3129552244743578918814121095368876532708005804402151245619026509531998225231%num);
  (false, 655923817245755338044544703003200936429299102337582442064750099242806005680%num);
  (false, 2116258390750188845014289737762678001740833205894067103072233768871633662361%num);
  (false, 1486758278430577257389885188791477675727772909164990568279251732574879255503%num);
  (false, 269912345699243591120168410356029321773304830189143339582643581624243830208%num);
  (false, 271234943994464775276067747018420196366696808808081448586528394364072497828%num);
  (false, 3050574815634234736933107249642281079380581791716217886247123364725556041185%num);
  (false, 253126137329167239427223469749191891102468482924383407712247910861406867812%num);
  (false, 319326132093729741177941205669059899308797482093642643571419737665064541563%num);
  (false, 537324987158827206621698410046280555502215965505334602286681938830509031749%num);
  (false, 423388907044175224529674319012706275040185648465859831958688709957314030419%num);
  (false, 714779105010939500646302203235643667702339320545688027720763211977291150520%num);
  (false, 1262676002541000568636465442645449124154056759382360259823491524724815173642%num);
  (false, 336506737311689312814618198373481759863837455725794341933284245070172383927%num);
  (false, 2421126564342235247376698195201807800147996977162158255940319785877202484708%num);
  (false, 2051243175083318823579257897434209966431106761000890185404090984390286291859%num);
  (false, 674728508071610521094782467652279856647781289132204068510439064232748225339%num);
  (false, 845435698342709331870433590570457529011711715381677073605448478753037444047%num);
  (false, 2497117258144305408367502861426778682036270995796637339136496810081071464900%num);
  (false, 37698411809462433007765150351472615136744093620503968997430755661583139852%num);
  (false, 294160301883617086141958398780235753560140448189771433257894119864993183055%num);
  (false, 44570140461411390591447967846587976092228520407953551334801376329147576252%num);
  (false, 2023403543970035847908690590401163352473129111297822090348483445755560012532%num);
  (false, 6508395218814356284574454445369219220468898245078068960194943856689179419%num);
  (false, 3444229297140889587021830851441153008933045019130751195689251761339518298701%num);
  (false, 51574008069738543022407680818363791260239512218891816061963247276441037258%num);
  (false, 1351768176353032948033044719969438894245338382508206833231008923176390962429%num);
  (false, 1607357020487925430728945061454535944412418741003355455132657237908880646796%num);
  (false, 1389244103745675706639613243493766941193923529180699626993719450875242821191%num);
  (false, 3583142310429123699087210015561163408710104486252118632953495675213623062842%num);
  (false, 933137237101541408082148787887331893902574649561003692082370597188485515707%num);
  (false, 198183554994572019054086835921692230674452314945488188401980748463146155138%num);
  (false, 489858901477897938579916915655441171727557307690319640616926498293383424903%num);
  (false, 163256897089942478706804869613180358881697073170563602257377502207987128636%num);
  (false, 850453053012899999266819973658997307378648289613447019352839234751528255801%num);
  (false, 265326765043352850199626316511056229889995056701819011010511777032039032093%num);
  (false, 1479930412651749660827535291900665322644283197355983942770351167954633860098%num);
  (false, 2446279323592799275828399125377258017213577775332623355729685395662392247369%num);
  (false, 39170799676957440865268562903644827312705650886592666515209294869990987260%num);
  (false, 104701771650321715601551386333738638550562174316274135958288044306455350463%num);
  (false, 3201814589301844521019502728812312087094657673941725332383255033039341855592%num);
  (false, 1522835604651922252900184185749383366342347597770599791488426548278963581040%num);
  (false, 1263708988177573009122405050405166420962245769461232238998809104072905756202%num);
  (false, 299272646800881667313014104771304675402003836680972918746987115846699831082%num);
  (false, 1900214362189462413644000401514070851430356114951832789306579466071246353541%num);
  (false, 52925576301744429007189301006244941183648016487553893993635766628688079523%num);
  (false, 412468024045257617946855147462465874511398003148969342063399751528683519482%num);
  (false, 3374872785048174535537139934691418509931404737469868566260589473267516388463%num);
  (false, 3250029108411069234449652467879456863373552009617854612751245810836908195800%num);
  (false, 2170370171589265764417697322497707778695888358818237092941339417312997985375%num);
  (false, 3543245234013010893421818347931003431625865078801903964583401415408888220778%num);
  (false, 1519003159852131802124268501577092509928484191526870368276189874008709603924%num);
  (false, 2166257443997779235036647984861665665883383371880907622512354381859148643010%num);
  (false, 687167336170443037933817715284714001362804594758024979629120421094094432831%num);
  (false, 594228566446698941099193686565002815830624308717577532667682280297226353554%num);
  (false, 537294874286657676371258516908958500096402947092770995105684591664663583340%num);
  (false, 43896226987857442133011815148018709100572582219296993730799363349376569977%num);
  (false, 957294831129958150571083461710598394881446396200750023627605972425182300770%num);
  (false, 46944595176273834265471850866264845172722939998009809196815079071675390723%num);
  (false, 729766189882681486242747816690054846989933615550997045331249666072135628266%num);
  (false, 6493732605985206859991537239537455172462533762003598058378775088340256385%num);
  (false, 1820370974821046034750643831517432195426916812607997912542466966419074180319%num);
  (false, 1748708504788541580268839630430459662515720727037371280711097432922314456779%num);
  (false, 655455282077838323704704134705699403838292616736271242158508250883763188327%num);
  (false, 3713966402571167704834740865331240236009522278014143404150947278896763914%num);
  (false, 2165226362794881763374783781188087525385324274427577854041989057890869331660%num);
  (false, 1109232323283043205565166738539876470801700051525369236350061007940032502592%num);
  (false, 965330214904019652320167031597405565455479463869898213606866450052218228%num);
  (false, 1251563861947131489325524386576607514372107708018491438558851883104162620434%num);
  (false, 590689639600235189552393884489583735190979059536121024396364204302001189680%num);
  (false, 3261796315748823058085219637867605323542635323578763745211153312534640556429%num);
  (false, 16057035069019736969922663341878296397500856540161010658550707081848861670%num);
  (false, 113688789290756922712745043743775440326675438808644320355688283771585783818%num);
  (false, 17108521682835057356683148465751419536812031311330173508452779055694000423%num);
  (false, 1546968387254780769038521917708373748058327949618227256218731886228420533141%num);
  (false, 1311960612054562286619432895153684244435423561664311949674209069097333159923%num);
  (false, 985019608430609510999514341874740011170330579009895411550963886411662604838%num);
  (false, 943208486721617752497657911382194061195571254202466427032371757560941273969%num);
  (false, 24532610173161242307988754043640971656461709009633289122941270818877369643%num);
  (false, 312921866358813660578143788571337902806746101217392083437183497379451830880%num);
  (false, 3023249516470268356049525002391834307223032237716555569688812933108907071495%num);
  (false, 1933790486438058495956623459845197566160532300375456011480083834427590813598%num);
  (false, 1441344538671165693195955530917414217214343921221294315110534519527487146178%num);
  (false, 2567275732653619928345902673940771900411769578211361750334405696623343180265%num);
  (false, 3237663816634813466280667836133047386858997870107734810302557097620872248190%num);
  (false, 1273446259864325206517431621778113407634987400116803225229568129115007450171%num);
  (false, 62491306504636376280291435808592144710190500536663638911051200990398389932%num);
  (false, 34988515679210167152121467427395584978759030191734360610920591639362491424%num);
  (false, 644239006456950816905800307970837265322064209761269424104761283709476234027%num);
  (false, 7881756584318501041813695759307282263902488772073005539032129995842668979%num);
  (false, 2320533346359210790125183540180610607361685292995831667036031988509362944575%num);
  (false, 1283310498638052978491702451061413278826841666946361264725465070187088913771%num);
  (false, 149035059775137962482760239050741563984026405392883835786843834716640689697%num);
  (false, 3317530344826199946069145596393789818796285906701287208879177616703643095199%num);
  (false, 287209385027682591988783219803307761358071371242006231264682428969213694740%num);
  (false, 50374988364019223268035102541650348081933379387727393519855610861412300978%num);
  (false, 1973712962792674082021729742063377373327307513080541279987013904907541936679%num);
  (false, 121555944896116510375645597869514935817368894324896948988952769505818976353%num);
  (false, 2093105424036330952428090363253433280230578756925766049188010047169389078723%num);
  (false, 101405991843385408210578401883594402852035926733299134289674021335731296526%num);
  (false, 677387531819143362112794319426487025386476647607050573183312035401818181508%num);
  (false, 1850765518229439362660806973707516995337600523319944669829539751631840280386%num);
  (false, 1706139326228663909871304102450443888345424091493590410548755684944083909292%num);
  (false, 772316683472873057887552109239470151887335345558922080203183982526187989174%num);
  (false, 533502224939312706297230814253122792353646776325680787477942339330795517848%num);
  (false, 4858542589219067311529307396858610691870440963901246318734771921863254544%num);
  (false, 2439248390520703325093081544200277118510669554046030167776177202891710551694%num);
  (false, 107665031108974967455241910734279282905604345406150556351274932542788249505%num);
  (false, 2138022905037942951846365258462001305762120163439855300289896940789000450749%num);
  (false, 177768248352743284998050263922808176897227001367804337156105778448215805407%num);
  (false, 1944936462823961429720924309913697556139115115806468130728471883665939191608%num);
  (false, 1018031753528442967060888023416408796642693362127654685880302408554810213%num);
  (false, 2474398033331829401954284730697502519251663929261392345757200585464193528226%num);
  (false, 1387488040114374522059515962689895746193801615517275800380650053728636631421%num);
  (false, 826170082407838477118474062415618268746679851076984482123521399939749682839%num);
  (false, 3330697990494162806984538721126345230337818201674124040774780503717015261603%num);
  (false, 2827980779981401577278091875207794353123498505271564993830920707846176638280%num);
  (false, 518687267490256529586283916188651881947816674754233773542643218112297831267%num);
  (false, 29672141643496611592878692156570220986381266749709813037677712349706860388%num);
  (false, 107448516507313784493672368662954626165926998607935650929443478408661870781%num);
  (false, 81423671857794084735764095284863061424930566615834007423400113430211558086%num);
  (false, 918642896222618797231542303327103954704736451357663925157291216634852749%num);
  (false, 803774868749505080905348528590062767296527930220857713418415974693169425083%num);
  (false, 106385021401790952210883999787736076514488273027892863324648436809168245548%num);
  (false, 66021010753784358375029498168920993410255010323313789918765084499969077078%num);
  (false, 1755568943823040182608310628993392278181527479676612919057484978208218635644%num);
  (false, 785041656060855668515495765329322123490134297226544192117273080374247919354%num);
  (false, 833727234340470826829621257487708729405456955390776945411374596482327438489%num);
  (false, 3053452138017213476345518960356175650159908733950698860618029541114442559892%num);
  (false, 2863474927704799811201410307242273635539842222289053597667686014783251325925%num);
  (false, 726884839595490373773190136344658702330977718877364944416738499999243707091%num);
  (false, 53883104692337008885866842560579946878252781256432114325869643683162128744%num);
  (false, 92535479600709262068541237139243547123777636691105572018226622413572563999%num);
  (false, 664779489364635680987936256975345873405916922687429988110327459571794260426%num);
  (false, 3550048897197704272250741647322980273098883117963212720801634891180833453813%num);
  (false, 129833108345741146808598310554399823056765788854613063528329227507592056%num);
  (false, 1759211855853261094662712636368247548135918725725564435710405211327036784712%num);
  (false, 1764999082611753379066906146037730899413026284155172891894346832215415857216%num);
  (false, 233804932202481837016410849641100656075065976793080348574955723113624231264%num);
  (false, 368542985696247905045005832556674014043697901256919138503488619948662771572%num);
  (false, 522433467364091110308909774938704200921674641599678199966244910127932159345%num);
  (false, 18410184745758026104589196503710457800386209991412928319770386214441900604%num);
  (false, 3574376329645056603811164712936725755842882553658813188078592807472365399540%num);
  (false, 2008489741723217268203285988514103267759792945491306670102730610745883466638%num);
  (false, 959927886518776438366607582865563756481879819031531062556425552235058787655%num);
  (false, 433461764026168488444480331028061747823417240470576343965073543174931806625%num);
  (false, 737849558796804987805659514669363275954574258617585732540009112499297320267%num);
  (false, 342453020523757409822409105314094776669496095969787225753532762649644842524%num);
  (false, 2335240031410101918540158910806988998374791275675731045007950013040176885167%num);
  (false, 416998782291428983360093230587554475875177392361949985573431944420318317009%num);
  (false, 3136728610775201214822484270127202708762346899081514744820609511552507289660%num);
  (false, 56981636446004622462512923158566690759731969514240562870260304479974997780%num);
  (false, 2405625031886671229574560770019745963297939907312774239636666072866482520909%num);
  (false, 279867137970271840214681613198308748522069987930678982633320640044775146331%num);
  (false, 3378309055428938478145954554731865606030010169671325229105662193757542863484%num);
  (false, 111054672601921829034555977091320822430435797721633629889953697375141470894%num);
  (false, 1429421621257024610638523415241146247198418612069238533189544751913670431277%num);
  (false, 2064005921010953987663491050588043971115240610183080950418010978105539694429%num);
  (false, 266570828851126058710751495384664942429730565889760936337002507743197908308%num);
  (false, 1971959854279763778254458416370490609211454602022374304692881682353798374167%num);
  (false, 1696910297007309359404339962962393908953181635777660217832926482996826969186%num);
  (false, 212516807950310785254905116001844635492609278459671101549558355676202101150%num);
  (false, 836730671022167916142402742155746236977848375224738429152528657428181591693%num);
  (false, 2699463820334390957320633676399414540755501784462364792301494836841394082398%num);
  (false, 2852269799707237170962821766066540463268709533624672109758498103008881619932%num);
  (false, 58891148430336480195261754940447132545287825716897648765312479102911681269%num);
  (false, 856207716501414758940098085715763136910721885296405452980886867164148572993%num);
  (false, 216336375466760599636063938717840413451536981708706654004708624712443747361%num);
  (false, 1761077121280171459098538100125623798703249670066949271601927653763541469670%num);
  (false, 450141531359258238616316933027319197798789753314580283772100753515726061843%num);
  (false, 1126173303004339228534689672875587916985121195477946360281692757971640898424%num);
  (false, 2501989369261312576527009611592641199364600830635592112976358115082680172007%num);
  (false, 208347578242004057837389128550992549305569730566632881781197103193187370289%num);
  (false, 613620487928907254455961904531095857782983743725523822623407678532037812511%num);
  (false, 723295949759884036811137885867563111459525840627536780036932636969123879316%num);
  (false, 649753064450942975674429757187754771285799888473768034958997416073414102890%num);
  (false, 3218762124175103478753189579433226359849076883795227920981363907526068209%num);
  (false, 63500656321246179258967377659423939527309300331347622688855326716661865487%num);
  (false, 2280484294589433921014525865039026542855492525623108175855473238579042962902%num);
  (false, 70089372253426361223174500516504409519281676143598510963518519018807544626%num);
  (false, 34918108010549647139715481565283869684597015560871638477928776477780306850%num);
  (false, 215158052648205209607961820659475175982862537690948268279868471203603836%num);
  (false, 76069485713641261983392757436705844120892345831241232900846412886741083438%num);
  (false, 3212463320154563296143618356292117502263770410268563651327974518968168676608%num);
  (false, 1983467737406436330125155291563378208420531771267922186057212961087710894070%num);
  (false, 2173906633605845825705580223617800599616444714507425527486246530127708488886%num);
  (false, 2134672463463434546970383608880542745257528373816563453473374943425167971145%num)].

Lemma certificate_ok : cert_ok P251 ((2 ^ 59 + 17) * 2 ^ 191) certificate = true.
Proof. vm_cast_no_check (erefl true). Qed.

(** The modulus as a natural number; sealed, so that nothing tries to compute it in unary. *)
Lemma p251_sig : {p : nat | p = N.to_nat P251}. Proof. by exists (N.to_nat P251). Qed.
Definition p251 : nat := proj1_sig p251_sig.
Lemma p251E : p251 = N.to_nat P251. Proof. exact: proj2_sig p251_sig. Qed.
Notation F251 := [fieldType of 'F_p251].

Theorem p251_prime : prime p251.
Proof. by rewrite p251E; apply: (proth_cert _ _ certificate_ok); vm_compute. Qed.

Lemma p251N : N.of_nat p251 = P251.
Proof. by rewrite p251E N2Nat.id. Qed.

Lemma F251_eq (a b : N) : ((a mod P251) =? (b mod P251))%num ->
  (N.to_nat a)%:R = (N.to_nat b)%:R :> 'F_p251.
Proof. by rewrite p251E; apply: Fp_congr; rewrite -p251E p251_prime. Qed.

Lemma three_euler : (3%:R : 'F_p251) ^+ N.to_nat ((2 ^ 59 + 17) * 2 ^ 191) = -1.
Proof.
rewrite p251E; apply: Fp_minus_one; first by rewrite -p251E p251_prime.
exact: cert_okP certificate_ok.
Qed.

(** * The constants that the derive macro generates for this field *)
(** The representation in memory is Montgomery's: x * 2^256 modulo p. *)
Definition mont251 (x : 'F_p251) : 'F_p251 := x * 2%:R ^+ 256.
Definition f251 : ff_params F251 :=
  @FFParams F251 192 (3%:R ^+ N.to_nat (2 ^ 59 + 17)) 3%:R 252 251 4 P251
    (fun x : 'F_p251 => N.of_nat x) (fun x => N.of_nat (mont251 x)).

Lemma F251_small (n : nat) : (0 < n)%N -> (N.of_nat n < P251)%num -> (n%:R : 'F_p251) != 0.
Proof.
move=> H0 Hn; rewrite -(dvdn_charf (char_Fp p251_prime)) gtnNdvd //; apply/ltP.
by move: Hn; rewrite -p251N; lia.
Qed.

Lemma rou251_euler : ((3%:R : F251) ^+ N.to_nat (2 ^ 59 + 17)) ^+ (2 ^ 191) = -1.
Proof.
have E : (2 ^ 191)%N = N.to_nat (2 ^ 191) by rewrite to_natX.
by rewrite -exprM E -(to_natM (2 ^ 59 + 17) (2 ^ 191)) three_euler.
Qed.

Lemma f251_ok : ff_ok f251.
Proof.
have H2 : (2%:R : F251) != 0 by exact: F251_small.
split=> //; last exact: F251_small.
exact: (@prim_pow2 _ _ 191 H2 rou251_euler).
Qed.

Lemma f251_repr_ok : ff_repr_ok f251.
Proof.
have Hp := p251_prime.
have Hlt (x : 'F_p251) : (N.of_nat x < P251)%num.
  have /ltP : (x < p251)%N by rewrite -{2}(Fp_cast Hp) ltn_ord.
  by rewrite -p251N; move: (nat_of_ord x) => y; lia.
split; [| | | by [] | by []].
- split=> [x|r x]; rewrite /from_repr [ff_modulus _]/= [ff_repr _]/=.
    by rewrite (_ : (_ <? _)%num = true) ?Nnat.Nat2N.id ?natr_Zp //; apply/N.ltb_lt.
  case: N.ltb_spec => // Hr [<-].
  have /ltP Hr' : (N.to_nat r < p251)%coq_nat by move: Hr; rewrite -p251N; lia.
  by rewrite val_Fp_nat // modn_small // Nnat.N2Nat.id.
- have Hi : injective mont251 by apply: mulIf; rewrite expf_neq0 //; exact: F251_small.
  by move=> x y /Nnat.Nat2N.inj E; apply: Hi; apply: val_inj.
- by move=> x; apply: N.lt_trans (Hlt _) _.
Qed.

Lemma f251_constants : ff_constants f251.
Proof. by split. Qed.

Print Assumptions p251_prime.
Print Assumptions f251_ok.
Print Assumptions f251_repr_ok.
