(** The BN254 generator (1, 2) has order [bn_r] (used only to show that the hypotheses of the signature theorems are met by a real curve).
    The step list is generated by tools/gen_bn_order.py and checked here; nothing in this file models the code. *)
From Coq Require Import ZArith Znumtheory Lia List Bool Ring.
From Verif Require Import Field Spec GateProofs Bn254Primes EcGroup EccFacts EcComb PropsFp PropsEcc.
Import ListNotations.
Local Open Scope Z_scope.

(** one doubling ([st_add = false]) or addition of the base point, with the slope, the result and three quotients *)
Record step := mkStep { st_add : bool; st_l : Z; st_x : Z; st_y : Z; st_k1 : Z; st_k2 : Z; st_k3 : Z }.
Section Chain.
Context (m : positive) (Hm : prime (Z.pos m)) (H3 : 3 < Z.pos m) (b : F m) (Hb : b <> F0) (gx gy : Z).
Notation q := (Z.pos m).
Add Ring Fr : (F_ring m) (morphism (F_morph m), constants [Fcst]).
Definition okc (z : Z) : bool := (0 <? z) && (z <? q).
Definition check_step (x y : Z) (s : step) : bool :=
  okc (st_x s) && okc (st_y s) &&
  (if st_add s then
     negb (x =? gx) && (st_l s * (gx - x) - (gy - y) =? st_k1 s * q) && (st_l s * st_l s - x - gx - st_x s =? st_k2 s * q)
   else (2 * y * st_l s - 3 * x * x =? st_k1 s * q) && (st_l s * st_l s - x - x - st_x s =? st_k2 s * q)) &&
  (st_l s * (x - st_x s) - y - st_y s =? st_k3 s * q).
Fixpoint check_chain (x y : Z) (l : list step) : bool :=
  match l with [] => true | s :: l => check_step x y s && check_chain (st_x s) (st_y s) l end.
(** the multiple reached, and its coordinates *)
Fixpoint chain_mul (a : positive) (l : list step) : positive :=
  match l with [] => a | s :: l => chain_mul (if st_add s then Pos.succ a else xO a) l end.
Fixpoint chain_end (x y : Z) (l : list step) : Z * Z :=
  match l with [] => (x, y) | s :: l => chain_end (st_x s) (st_y s) l end.
Notation pnt x y := (Some (of_Z m x, of_Z m y)).
Lemma eq_k (u k : Z) : u = k * q -> of_Z m u = F0.
Proof. intros ->. apply F_eq. rewrite val_of_Z, Z.mod_mul by lia. symmetry. apply (val_0 m). Qed.
Lemma of_Z_ne x x' : 0 <= x < q -> 0 <= x' < q -> x <> x' -> of_Z m x <> of_Z m x'.
Proof. intros A B N E. apply N. apply (f_equal val) in E. rewrite !val_of_Z_small in E by lia. exact E. Qed.
Lemma check_step_ok x y s : 0 < x < q -> 0 < y < q -> 0 < gx < q -> check_step x y s = true ->
  0 < st_x s < q /\ 0 < st_y s < q /\ eadd m (pnt x y) (if st_add s then pnt gx gy else pnt x y) = pnt (st_x s) (st_y s).
Proof.
  intros Hx Hy Hg C. unfold check_step, okc in C. rewrite !andb_true_iff, !Z.ltb_lt in C. destruct C as ((([A1 A2] & A3 & A4) & A5) & A6).
  split; [lia|]. split; [lia|]. apply Z.eqb_eq, eq_k in A6. rewrite !of_Z_sub, of_Z_mul, of_Z_sub in A6.
  assert (K : forall u v w t : F m, (u - v - w - t)%F = F0 -> t = (u - v - w)%F) by (intros u v w t E; transitivity (u - v - w - (u - v - w - t))%F; [ring|rewrite E; ring]).
  assert (K2 : forall u v t : F m, (u - v - t)%F = F0 -> t = (u - v)%F) by (intros u v t E; transitivity (u - v - (u - v - t))%F; [ring|rewrite E; ring]).
  apply K2 in A6. destruct (st_add s).
  - rewrite !andb_true_iff, negb_true_iff, Z.eqb_neq in A5. destruct A5 as ((N & B1) & B2). apply Z.eqb_eq, eq_k in B1, B2.
    rewrite !of_Z_sub, of_Z_mul in B2. apply K in B2. rewrite !of_Z_sub, of_Z_mul, of_Z_sub in B1.
    rewrite (add_of_slope m Hm (of_Z m x) (of_Z m y) (of_Z m gx) (of_Z m gy) (of_Z m (st_l s))).
    + unfold line3. rewrite <- B2, <- A6. reflexivity.
    + apply of_Z_ne; lia.
    + apply (sub_zero m Hm). exact B1.
  - rewrite andb_true_iff in A5. destruct A5 as [B1 B2]. apply Z.eqb_eq, eq_k in B1, B2.
    rewrite !of_Z_sub, of_Z_mul in B2. apply K in B2. rewrite of_Z_sub, !of_Z_mul in B1.
    rewrite (dbl_of_slope m Hm H3 (of_Z m x) (of_Z m y) (of_Z m (st_l s))).
    + unfold line3. rewrite <- B2, <- A6. reflexivity.
    + apply (of_Z_nz m). lia.
    + apply (sub_zero m Hm). rewrite <- B1. ring.
Qed.
Lemma check_chain_ok : onc2 m b (of_Z m gx) (of_Z m gy) -> 0 < gx < q -> forall l x y a, 0 < x < q -> 0 < y < q -> check_chain x y l = true ->
  emul m (Pos.to_nat a) (pnt gx gy) = pnt x y -> emul m (Pos.to_nat (chain_mul a l)) (pnt gx gy) = pnt (fst (chain_end x y l)) (snd (chain_end x y l)).
Proof.
  intros O Hg. induction l as [|s l IH]; intros x y a Hx Hy C E; [exact E|]. cbn [check_chain] in C. apply andb_true_iff in C as [C1 C2].
  destruct (check_step_ok x y s Hx Hy Hg C1) as (X & Y & S). cbn [chain_mul chain_end]. apply IH; auto. rewrite <- S. clear - E O Hm H3 Hb.
  set (g := pnt gx gy : pt m) in *. assert (Og : onc m b g) by exact O. destruct (st_add s).
  - rewrite Pos2Nat.inj_succ. cbn [emul]. rewrite E. apply (eadd_comm m Hm H3 b); [exact Og|]. rewrite <- E. apply (emul_onc m Hm H3 b). exact Og.
  - rewrite Pos2Nat.inj_xO. replace (2 * Pos.to_nat a)%nat with (Pos.to_nat a + Pos.to_nat a)%nat by lia. rewrite (emul_add m Hm H3 b Hb _ _ _ Og), E. reflexivity.
Qed.
Lemma chain_order l r : onc2 m b (of_Z m gx) (of_Z m gy) -> 0 < gx < q -> 0 < gy < q -> check_chain gx gy l = true ->
  Pos.succ (chain_mul 1 l) = r -> chain_end gx gy l = (gx, q - gy) -> emul m (Pos.to_nat r) (pnt gx gy) = None.
Proof.
  intros O Hx Hy C <- E. rewrite Pos2Nat.inj_succ. cbn [emul].
  rewrite (check_chain_ok O Hx l gx gy 1 Hx Hy C) by (change (Pos.to_nat 1) with 1%nat; cbn [emul]; apply (eadd_0_r m)).
  rewrite E. cbn [fst snd]. replace (of_Z m (q - gy)) with (- of_Z m gy)%F; [apply (eadd_neg_r m Hm (pnt gx gy))|].
  rewrite of_Z_sub. replace (of_Z m q) with (F0 : F m); [ring|]. symmetry. apply (eq_k q 1). ring.
Qed.
End Chain.

Definition bn_steps : list step := [
  mkStep false 16416182153879456416684804308942956316522233367973367747016778420983919656438 1368015179489954701390400359078579693043519447331113978918064868415326638035 9918110051302171585080402603319702774565515993150576347155970296011118125764 (3) (12312136615409592312513603231707217237391675025980025810262583815737939742329) (-1026011384617466026042800269308934769782639585498335484188548651311494978526) ;
  mkStep true 13329378671953404782778259908970776496321471538098033640740119230713439037279 3353031288059533942658390886683067124040920775575537747144343083137631628272 19321533766552368860946552437480515441416830039777911637913418824951667761761 (-833086166997087798923641244310673531020091971131127102546257451919589939828) (8117249832279317015153427508668101071477819205893033306860970044344722490651) (-1208823912269936076413199359759142986825340552456540115266002758965506244056) ;
  mkStep false 6597588128837311533837462132024146759936159999671213887650727707654607578784 4503322228978077916651710446042370109107355802721800704639343137502100212473 6132642251294427119375180147349983541569387941788025780665104001559216576968 (10106913947248357741732862409624128874603326941833186855361826280322012466112) (1988655250795713293658704005805232871248039518765771494052818799545009900833) (-346722480235142280430653551213114131302582213660894150171013642651089267311) ;
  mkStep false 5245267500582376167353803737789836095861322058499971942886663563000946844758 17108685722251241369314020928988529881027530433467445791267465866135602972753 20666112440056908034039013737427066139426903072479162670940363761207457724060 (159673159388150438758558884857789749696198349913145379318579024136770614347) (1256968469957121624591740836963773496933860244646764533113569237810208573655) (-3020731442511506619831257767320891001408450428556571840779449747257909657196) ;
  mkStep false 5879201177478347122929891206274165417338267261760786705557214597734793160492 20453939078259811958859768391452073654460321168773748684493785442363495374770 9582859829925552874957318860636821932456214701004608986274201852321144884827 (-29016532755237838317655268676161505866231108286638405143990828896353208650789) (1579158577856107095602058562970342554506282431193912798961486768358106641636) (-898537976975413646493630827523799211517786673483717739035055029397566508997) ;
  mkStep false 15532135662791483995581206803000737843263331774043544625713533272353484962534 10609540540875827932797320455850052859827897498153948414964160013685734487046 4813993645475805825314378837641334666424083557311142113454529369033402933209 (-43740665672685090502307622533773991843604869944925773992848997305145866159608) (11021772723371055063436300499478885421925568947568771859875245457345599948790) (6985692478675675955757708568684757982688920978442657874007695037864025301260) ;
  mkStep false 16783612991799254318290240547449138885713321842618152506899151902770388435464 18671841561121186512404299858044607005439720124998758352195376573445009373523 7809354174443370407285436184170596638054012602210636316839373867916701870951 (-8045170181784098958695404844031755899293156411367697991511216267893471647812) (12869450814661133847033725981146203476421135481431112499815674477860934637207) (-6182064998980700006961772577528245920497517811097192255355369535822602528536) ;
  mkStep false 10585982087361365665179903719068402836287454505236395454691107137799355138853 20995044653276697911307939368731579655805262441003207714079406136482465396049 16084789831238785085254656825936433668733393950486585714819251008157280258921 (-40230439702161715907798404996874005475737453428527472598881972959563447476707) (5119781309540952182429537199131751142349029137360521784167499602116792930958) (-1123588881156918126281716640901414426804090343181333206957382952168787339850) ;
  mkStep true 6122902439937471857469635257008290874336646441618763539993075488756198252407 14405412407063018763746635831875882041521743521688399193732505237193568935420 6272588754200310235302307668289134587180577803105249708612090375729169501999 (-5873043847641750991939932749836070773646778120803672478643107687078380588399) (1712788665061169271212345924062254509259718596229093593217584641540179898213) (1843349216969007106459792330521145986067620234510045804798519353721711581501) ;
  mkStep false 7877411031509354011235717294993588072015759551819426751287040667084961938313 14137258555763687132939794885051041870447540593633693869823145302990175245096 4823424260238737826651581520945393565627261403333940726137376386911795887012 (-23927192475992875211866742377991580559144429781227363587198412498333654955022) (2835019920177397176381333097072875135377294772449437825090495343697468478151) (96506518076184516667410675652208983775065131758367644541599123328360377047) ;
  mkStep true 3254292480209813955772177122053631923512750362314461442312292477451154025919 19629594285088025119699124465014260400978598803815724301163961238657807597874 18972946422592766935115455664335606655985322343940506011023604971405642956012 (-2101894358454624531579517954112130617511056492974858801481738934978662582865) (483840553522706156602904130636051096651953574586338253693261822180505442730) (-816587561065652046523776216601328341393415049622714284332701342668019873482) ;
  mkStep false 11175480599552885388987569486846777833683866575119363644608197695744165800116 21112385514428891796169431039086280501551394190964081602819863409575226989978 18218309326674345017307792464899257152985027233491987744887543710752419133932 (-33438011920501688363235199151249904310919703299276857619163597729024244956468) (5705865352566250189504527745888073877192819373655568622518750288737715449310) (-757068747533208037611931573635899343800113965010774726612954642909793659976) ;
  mkStep false 14532191529473249587978486881075729615500639916682183971952980658425473701886 9439567917765669029501347063065533137850412880012470412086164080236539870552 13634162010830210649266763010054033738468916624620186196298620608836343523062 (-36900839875635438351796085699269888185953635080600085436250041478738961377156) (9648311739129937954219189344420270070606403454475178178831979169985261582536) (7749896690956325619167318517680019792222366608640927197038954298239200289174) ;
  mkStep false 11889078842864335570474059454335124921521657116543000809644181517433972368318 21756937165391847415104541733272689674245924447265498991583156437838473228067 8120752594659579623788816080379380623233699211270727017443313228082184337274 (2598606343917090737366623601605701378812162635543087661876362423366469694040) (6457813747749531967581436174727623197073807910792449122572998814645297128391) (-6690449067983802911290297706140762719680317118991412167559342573236323676182) ;
  mkStep true 11350806394420824280608183399082003579316433378239478479284080470428013052127 13132964765163485444716177043487079492060902885853065696970933946490049319153 4068653405888627265423540468292930351734471226927779604391831356913822304896 (-11282713872737188269324205482356785770825482141934732993279382279891867200170) (5886301909112457863285782856310838018970946821149691153613045854449067676276) (4472220161252037101684440538822011914231847723297879618258871321307252003276) ;
  mkStep false 10218523124418609391971349613078381736874382785875822051215435539216587154579 9717817072720801701008715071150022087545160304836358844771695532270710306313 4556503081702366128702989327562466017401893946567115050526392793271699367285 (-19840470305689265121761723718825992481944336848697307214341697653940837080773) (4770516091934407836480578708085677364408617100163901903254119889852983807634) (1594361222728791280377629983616476630870394316415216511903556453328138418213) ;
  mkStep false 17762234373743338878973467125376757028471427569620399566986291627144849317908 10603037916082927299275152201573294150494341379932786198408700496936307944773 18277110226847665964981398163300722465868704615894819387876549757384422718655 (-5548209390945256271617342990941194097808679642479776319721429768018745059709) (14413992561901709313890775391778374635316368499088472975152040991758348349055) (-718353692636980736752197752038071353390737340183143163827925412145545222140) ;
  mkStep false 5392016203140697403965862279901330099046228741180244063477098925741613700481 13725458913518042704931395406606511407901531403298781018538023776470588395958 13194786348850164788345658590082530163710910988194678660627524705489317917545 (-6403999215054192011793412445512638788914814612693643074904099000287801583819) (1328285641984414791147652011347397398926938097867148412638226524995270346679) (-769186668376095840372708008108162397854345880096745631560931451358286177695) ;
  mkStep false 21609726539514312928070072723765789278954138986199895045333941859662536446581 5452235926606136789702305950946911767811544176402908875218248519614463732026 8758937053656458489751793914453976519905869382206016111985940222851064227378 (233311662421824291887305454903700698330663468067476152536539034878473037506) (21334754180445949942375874977023469625142342958327157831418867855847144847893) (8167950593128948559948865619598175272359166297574628531834673552351016717543) ;
  mkStep true 17262054410148928735749635638767290983339429916610905187639928413548009428926 14264813743504709087572277969915465452846101983705707042475804812573347819547 6665502117700586216085406727733241119255506109988221942866851018801464606740 (-4299878878954308397007512582490997444764643598989583551083577612423695400178) (13613633776072170414947579925690806811551722033824671852580493224410733709794) (-6949995879508973271650320531817347046824590314467337675639387468972276881308) ;
  mkStep false 1963245188527578911782638517789734218517440566796317893366508674230689011577 1615393765029574506146005826685263175389861848804824229233928429018519494518 9703352315056188456993782499433453727625717945767457763003461334625262349913 (-26693906263209922469673412737501534900310272324124701633060102860584918743749) (176091415507617139601848997508966811850709899772134269118353685146086169299) (1134577729962804367636744962787625081198948125984777743899219915465392107760) ;
  mkStep false 9796741706054919686430599913263384974007098202464773800989354580841079375336 15861082628889704756444564386879917216918833959805530526981377052804846220224 11630935753723338261089488658594380041393025375031794504247827947832817429774 (8328397242574252800755248038665136532476088005297535810108936491545974277308) (4384826530714155750286683564034155732813930110316282361146892877177212358092) (-6376086698289330735118288409506305160232551946301660978881837628635607305041) ;
  mkStep false 21616903819836703863572768082389227261811667914179941507355036296991426637489 4186603601590990643919208521088327877840124845225690373332146556767190479149 14377362231297443837455987187252793847727821946201263463667231408564742289412 (-11507190819760887719239567557707460804794144672896450572590396441131229942332) (21348928440357904505813564506210356896136085876964710431589394408693967904428) (11529755575058212350346454158706660917002847689147491053963411086763566887783) ;
  mkStep true 1666402306586648129188096617429647597532585664209754246936355546669200753479 15525560615552525143609111677341925582250692797064993952882886548522413062764 18203431104738891146133628329981869126004574898527373601618254795269486639468 (-318735767841420723788893527147200397310610128381920361432244232516739541054) (126867042898631625901741068997483808857117110603307505628394382753119317169) (-863260894581099777016011707053945671180553703782048488042423452795078539855) ;
  mkStep false 6037156452222399919672190533140571394942486422289694089054703378438856245319 19150204306754218684263545760741935658175041549417226169807092777621130371592 16258985207117724867813746855760838417916071087460458672772553515130880499904 (-22995686640339762527633553483672526962436652173702383457366765407277650890488) (1665152303088817158746108009031627333729322761045528615810144177976008876327) (-999739502867948767498587802221879092240652850517182170144510677937862569488) ;
  mkStep true 16403620550148011310037153065892413316974007023296645035275673285914574054570 1333142790901505204859366195021021631678530986604707590915719465769006947121 15399587771363585857262129877948052670843058645632841057776080501980470201769 (-14351662979304733661310797388464057281861887893562044444894336947707073659096) (12293301418883030720618986649600530839042182816373358739177033542785044007942) (13352570973191773400480003937305866384733715930121810697754431342160466476859) ;
  mkStep false 13178160034809707243455545015940589862437069875377938820982985627571414587038 17888564079587544110050492541643844418825674239006627461629187225757848334752 3911484354450028142314833463054991280868851728070571432295568474240834863609 (18299534479982675080279546369184377902557194223723580494699225757892344666687) (7934118006634799267766236113273103990938407871476250483550152932860491959150) (-9967451131798744195604620132202589318145197327101816849821127181546603871932) ;
  mkStep true 14834613038743979442485865267941818390588240362172279776758617191199364339922 6059192169760337238726070962541692257756534588172630340878530646839679601522 1794703652753897511264739577110030369932395193700392294272364284302071684345 (-12123856971674650726410677441202520419573760827293713693355392775678524756305) (10054061684978950399386003791010391414317796717282402295087407945513105402823) (8017279221597401339360622788888420203554377995874950720147904153612663006182) ;
  mkStep false 19642367610419362794953267530471724228609853767631750373786296920440417470178 901874762298374226630936083236048752882317833897062656715365069255234561528 5432514478171607624067123677518171087180393473610864097061889158832316902680 (-1810879552279716321375342081026204845801313053474470627006138184052268910104) (17626933674024555727630226366556163375743579388292902379270515196755882736664) (4628143291086864312464013700055063426424922420592674937912136557887504761029) ;
  mkStep false 17244519343980520758307216556162358513521976297033613136247916569868983968375 9551959919498178396098483409724133208587126547743397018017757898489405504342 619821417682071287200331603270138992448707105538346195531633550757915115152 (8448465636676196282218199672102565062826387932414010275676610974583507075056) (13585989937433931413336599291386880431130694359912356336536640662329488887069) (-6814917108413659455834901109362886339445118130361972601066795226083282615254) ;
  mkStep false 12921034639021757357122310329750952556805830751461501708943688792643322762797 7405195609621948867316366630994267552785693617424749070323486058676532772508 12200056067481388410920644015636462696995506026537129245010219638168966109342 (-11773551143609405110985992733337527014465057101827615311851249353614109815188) (7627525750712350183764648757937017983011573804257360835708509796338129578199) (1267274681304536006400414274503627582623855247120979240803826731893288375388) ;
  mkStep true 1259680963783417631461352294673597726630489615289800612067635723536842532233 7350021255767972432724474360250666206372368985668248995172442191612592773757 20750210546040000665576542131011277281902724930532109080089468728458537310609 (-426173265581526302405650053332200148195610431602154406122957333961852331377) (72495363826570195401921952319787705535179679370876804377837940323182625681) (3175315791489300048214428304504414269745256002084532937084250962931714904) ;
  mkStep false 5552111735888495408653695280664904901545592186330581887738251403519700846340 2635279829511012420179074635242322402494619603468802170014192486455596669492 17516920154290207833178761273249335756729999958443999395836659270444885349962 (3122522808665528957313600226397495378383433888660034789861124214319640252331) (1408333455923520139805916140862228333951968555518388317913571600928539752718) (1195928396704659255896587874592713023905950078544077287624228639987058183663) ;
  mkStep true 9801671403486074231079480089749150023565901985812325412476926087890547307135 18013491984905456525454436605705150670771203435503420165025367234161464051026 929727432976037161100044150783245605760340084758904740318136472586147589703 (-1180092303267248651279824871795208608641851465997377329591500207262876776275) (4389240509822780803055524272359746080408298087437639646914235250802768723382) (-6886445074775689375616571964756897471672387902848247163991534407835183834485) ;
  mkStep false 14340070110811220590570092542816656970733070936330137399352133602785728424328 5570703561226380040199655113528456906778535966909818484584770141501881303798 3347688306373900604916562399951819539174771925671450143673658908640586520430 (-43255777673375124885063432729889978573284225589146216401813624001770733908420) (9394888935902123693494902534240674644701560725157152607553274627297743936298) (8151885896656930934707806532912488339173129505810487067956678255558790764797) ;
  mkStep true 2174195746816870995608508198692636410055215715664712017394796239250453787091 11652184718160746077987363053209285973092250854369810057198057583150750382932 3127481206917539967861628016883118695352425924409552018808041039994966598680 (-553347295190088240342156683067129589065434412858798387091043181829972372453) (215966497317989124481994675538169058412003261175522012371101120860767220850) (-604083687446883964949351456262971665455532101230586355356913602718095481088) ;
  mkStep false 4933046047511817773209664719665333182176005887655678752645375991168609895864 13073160125451149128739079760444239255809468347676735712789124117477395297355 2870141839114391598482190085516538742149359570455345405198951602542001095302 (-17199380083170557527101876120853289045834801766991125700091700813941050535504) (1111781491523037698511431032016331490560678549764963458143443604755291209419) (-320251248927977014549906308313428347742571657956007090033391053025581332138) ;
  mkStep false 21348578900347121108080997268747459929237668687173188786455199692802447716654 6701305746698986451499028581669017386046895819489961359489581263562514948113 7213851887611872224997932555022132889476259823882873453480093868852519585779 (-17825809511827167603203300218205814436758870624488926795228014808667099697573) (20822220574439765449881875635764044802148911108089673192967985209903903064571) (6214753589075201600430008971731774758428091892731884188108496633173156531189) ;
  mkStep false 17979698958941869194686493734250690648457542682603803404772317262398688083823 18813742634681700761299240567285776650025466584792786827542663165162024354266 1332139953773311381623157745740593833676646392706330008637382126017227088221 (5696358321000861693711410311281766073147832728149727918864030164103755929969) (14769096658283328952430364748320215712965088748211441730126845561669339794739) (-9949540955857091064088144990855217545699005928654582799103847710159205958993) ;
  mkStep true 11442332554413839541410147296629492966559890372797174087978747924449800578692 9919287261208055833010897399343846849181364038713417502261430158220552993467 2255469506695140973286610915439942212784439199578713379309930278620078248244 (-9835101934844921856270418214666103767013037421906947865938130925135644750767) (5981611911582234360127219298689178478102369290230603211168654417332002333110) (4649679596008912171053508971547338949985549648450652343604243347207133215421) ;
  mkStep false 9140770666030333946485182857198312093938378495196021636960371023028752462916 10228516078344147144541813535266364883729368033150355165505313248182186448993 5842007323746616955453898260610763803968646969155645454693387793280369343371 (-11601813895621517560684559140846221505697661755543088734658818892910725950973) (3817286241668040978380752666406394356952856191461769657446801122040660660863) (-129137350920271591034102671978173762791732185086861779649017497819254121457) ;
  mkStep false 21094722060860124686052576905952137073193910976250494386904010780691876414971 14958956047665287816414210305435721277827327459416132197798251754160986395370 5072189445308516756388591589860407298518566377380098877239630305759322254214 (-3079122538321984799712065995264266422923580016117160058418311419257911933255) (20329968989765070975168454142136817270532170894970345277152722757205700058795) (-4558945958462311287751745257147008673047643151676705754226104354278792210044) ;
  mkStep true 513890835056006187159623094509211436789696904019660698474214657161664769007 18476597782837256020961355819158749283572033575025449111122557218345034691241 1920573919992579196197768188329831531513945653024621048001030298860379015073 (-351205460388554485525051802237602290644839106721081089410499358171894529637) (12065097774217466099520131485103243562305573410223487095686598588694540939) (-82586978740129500716373178597437104877820899631501790742878990581725467848) ;
  mkStep false 15855718342007699177407884371429526519710781389716461941523198491872062750202 3856713538355685901956033574354914683446623898233837322071384732489658486116 5566407667124021096130495509970472833313031126510401864725933742679325361160 (-44007636623253611073155203899256882371961033682713004819626698009150884935497) (11485791966632808491346227793592680845759363392442701344925645112945098894882) (10590560792410325107297122943428454262008769196993823202577158447041783347199) ;
  mkStep true 15801590424751332272050450179563625049708075772519238062922952542316856840525 15576941252383958971371419745141735506125508437092934368946253824790277622624 9302957452436071358621757524965656439643450421556167524013064770805002938446 (-2784243946648470530972351917459010366716340510639405549938424878987884476599) (11407505911442376391932288935419385641767707283743350716485825309181318260348) (-8461082925032990340666639704312033934006057575263274289825179163548323877582) ;
  mkStep false 11069274655541516776166789000843978339346431523720141976890103539148930511045 20361154053945982970871261386366932942429602690796416003340869011395495570725 15181482326769496357850461713499621837027845056054501666190949287220944230069 (-23847017647659116614031310741836233720617153951511573579800322554588308285036) (5597929542231803268260510267537003005649641565158936289165781781854264604844) (-2419461709243987943193755058466154469227288417322009682439277601829691282820) ;
  mkStep true 1202595949816955389868339998422792866862705586159199638344341639365289788065 4717871036515536747141762651066629586135471993132961719102106435051301326288 16967786899600648678010495584789371934971729206337059434314417286232600661235 (-1118693791102699664198647655028992356693210801213262021608259753673847691271) (66073692026545819382139062073912795652696871650832659703017867165306321117) (859481910391530282416542279939054690043930038858157724188600372799393775947) ;
  mkStep false 10734566437152722438317025364412083276255810347791617386024591707884857398999 3934939070796382432193425097365193242318509229884311299874664491542258928763 16343345859374374804067822266908856874880897146969299254765508607403116559791 (13592171464874158177523615950742346623153410772624782289485157088881564662406) (5264511969661035055349586730745130772586775482674531309368041557404332023514) (383970300905045316484830111051320457933127650800397104364001938826701982903) ;
  mkStep false 13502841995099710763928197044083938954017140112124914573881270867905379724807 15446874839726033756427343557133330772668010054409252694599510074773468211934 4056434794750767376790196866528283661830520930104024741868231705869500338853 (18042197332168687726718272309607756071424558333825349499727690530307288341249) (8329893953214681679652268847104966649661452317105081354740046456967605933883) (-7101705269616819884696504198343368056511154909803205870865376688327064705327) ;
  mkStep false 9164209687965429305295220502526090163383868034076336601696172319803968917874 18498530005613620447805266292518900490392837167128280830122277760936335009346 2278764658377990638002715555271195845031828550258067716547044244264048552241 (-29306591333490196032398691259537277372821923227080369628044783789300559413928) (3836888127417892539586993084456660727865053582545172878015380590430066645514) (-1277672584286651773183622920557758904482477770085823416256234256591502315954) ;
  mkStep false 9518044715308949238192692850110284962300196341989218860319655255742341036845 14485409908134114468611588685609923375190860698636089304974339915798790195449 11984147568408440413158968508932051378792325707267893854008048825433633646179 (-44919460873787729153956221274769011644378264906491787653409339258666195232926) (4138896654841807614133662585308050088903045925177101437057876385669967991348) (1745094695785657538646233627856818945135770215752844022069459449889385826615) ;
  mkStep false 17600579622431439732483339225117603122693989033565090856362928519592924515629 20974210409631845397137197021869890458660934150421373932920910452349970115799 7487809312424924236144615835864791370936060318800780046717144727830876567147 (-9485704945171842940915337164206735742403228711837329895154990645048232650387) (14152821898924676312674816444470056949825260277800502961738122668303314099168) (-5217716677825178609694639951425289575205918828412430868675061731798496338572) ;
  mkStep true 3103582625789064850171501199605542671041677644148983283924013651271893565662 10612500672922528209356345331907116191732874047196004816619282754926289027894 4132282271181502384170483473623573846689588663592239436349734488077548021956 (-2973979930601326182094296990025011190708256934909151578458581085340323759357) (440063881395078286169805898683483456762360985658094269352298489441997573850) (1469209863058237398986087967355604762730031962607468543966607963711395384729) ;
  mkStep false 13977705172816641725103072241610159125515384195482866660699885398291608186905 10086599256209555440212492305486764848406923551313314138714356144912444505269 9127364459711433590184928939504442209815676364622526500877629338991084343502 (-10158689591733059157680295341904844111177593023518706102133315934708667656956) (8926081597420048336665364408785764586072803122626846651246562176425338818096) (335837599930780646472443045269058650161908507044977764677243445307981981249) ;
  mkStep false 3055346327404977123742697124670828284043364246481464960132020973344110082759 995902985336829689367405546423331655250656219021675120260309144786855406077 11155996231834851675249336575441729573411560745722103405621802504252001952052 (-11396252141614168003325628776341466343543785838211490250271770116823321512609) (426491118316188855310770242368381960726128654747333886072626450071405920102) (1268956381167527848521467570187738099356646807945534939389936826541210027978) ;
  mkStep false 20281612429174993114812910301522656187830298336415413755833261551238691615650 6416256380800533611243537641239537058195845514365564925103711467492685739241 9163602272124579418480553517711952552090954739355610141102615128507986613291 (20538319043443535279363120677308317813995293054763459760902022130993544619811) (18792911113778235837911145240513012254262068981708589734215499288756326462935) (-5022491181208269854180875158671924746295897974010440279039360986029078619921) ;
  mkStep true 12667371140814076809367127372472170074252642989778604741145878018020825116339 17297172266594459472548354977580339066973231820231853089887216961216959059872 17173592215776310039956485720783164713492619511238268996662067874897628274892 (-3713276638335616081913148662220037460130714751946378832583075003074134540537) (7330980954418002313489600091667157294493828625150347689673563214633282980329) (-6297106656042386169200516313716245284252211438981769868742038403424989708724) ;
  mkStep false 1021365368912433664877091725159941721106430492046911230380819235855382072413 17614435366972872082653886615142005657806009329100948417836834128496507365772 8088668111575999571746535140859555569788768989455592181661003183673765571687 (-39404509791526342524876725224226791054507412271341593939048746117717173308920) (47659705848556878726341149431843088579079437347202462899533825991558472091) (-14804365314184334335347089113546156028189866872453975711209296576035109913) ;
  mkStep true 21081782660509311274264165949664486599242000991116049467426698814372163785842 13878758248644232552143690173677505977542312339944627590716002024008594140305 21321412416858276014985847679998368253732352344434613518650731558866700532406 (-16965441231094423898534620319935107131132787482362670731364735133889870016759) (20305036029948095377845418370857651801356259409214940563807728834853177452842) (3598038159553020396173670420001258422968972966545957599967089234631784287887) ;
  mkStep false 4013280052840822108388906415975664132241302007184754626411901393639773667322 20355414071805581417192447119130885206897924333372867041516318746141432200512 4676644650126396560236804417093242366316695043551582770761126027437155151216 (-18581765363827677128003125625854086929142395081990769143969643146278499545917) (735847864848577730958978107710828808217513552431217014834569229424006848814) (-1187515771658861716898240216564999919228439889288491810398017785786428961172) ;
  mkStep false 18877747717902193032810217797351387542287090595408735863381536916769902251355 2662088660305316746254324658906076193668085945454640836548649438466599447856 21099496285883050406548501664630227515895362510530387185245746563915295094204 (-48722943024966579780092401160910048154010081851036361940454310303838765914784) (16281314173430296886863224820572998037089625513592261308732569767483066524815) (15259796565889577783638505641544817468154534724415443999315744914526321654620) ;
  mkStep false 17168758213632421903674653491071065580599340980221703869819044869265203097158 2908861348528718977165916813403102906041588222822444287526802165398404476793 2221871069951193582208366910358106442165674754989716073175409710786316165941 (32128853665193752928780092593531646014000064065958654411407952428468230861232) (13466876273444852315099765353741270972748735723236758259537612584949980241373) (-193564218134960415563862252745715035615751248108312955632524089798966094177) ;
  mkStep false 20923407571987585133862250964177649347211817041438014114358075167356029079154 19819360609702490454911676965962439528428277510239374415201944624149712773887 13874360431157902302430157804327735500918478466551297780526264993050291794733 (3088132989883122741916586997260764082201261991535894946969836706141903400407) (20001102280656477416602638860749589607888991684844363517256048809043416256021) (-16165083253099051393504474660324375450472808809635201033967855950414612370050) ;
  mkStep true 18929187596267574411336131043701851191675554096015121662798943360461552006916 7031769875737270683731788576324598243360011952597263068667238521493759072405 21136510082930209073338494456753878679363483316996363840496530505278327694299 (-17139995988522643955226254812548575263554302878121585200514161861731400208715) (16370164802752892387218826950493095933445586688570148124785362189859463516461) (11058845852763527239107705960599454390589768480903312909436343934886327038560) ;
  mkStep false 587886445688414894911271863700980428940211450371349287628489344481629247714 21628205966827488391845413996513678685826272092189943598743734853221872086873 8094501179591286485086856883254204956259346031841433523414421575935933008804 (-5641641857923132281588817684392375509744648027880713024521331116392896594441) (15789776961439383482718769788610949208391648549144298558486067613669825911) (-392039095305783240620543730251452163933568490827627567095813012112544225985) ;
  mkStep true 16618992567488756091153711822635359236645784565539288645766076514715194024924 193126289932320754320105442111941419968689807711514333693969052485788348859 17706509955884089285541685708064138159298183195962137130926119534728671252102 (-16421555458582054535502169467031384026841103832762683402860472096311501224722) (12618231421106216772335466502873745259389481544551080858222216901759718280621) (16274921286265680900536381592100785497988178277368594157265739271357122807410) ;
  mkStep false 14184504842121902300056681488619413077841878028790140934543877106791987693284 136517285323071407512031904412258997763223053991785466288034835094709831728 14957223700508142183999718497181285713584014967995395382418956442288375412909 (22944018944854006744123057357081888474818759306734085363495356083108955872371) (9192157579493852939867218844406017425538796740178536461305049542764644876870) (36685023310878704227709993207460281580605617925868036997874937974790928671) ;
  mkStep false 1159586298119164711993740751768194749944562701098568250720140428855284512632 10628662960967693693880572913608615406016631555108632041600381078119211878126 6083325847815351556142775753505033992801798885730786294026809677557507516694 (1582240868635739057289126802103121665452681345516984121086664854616878190928) (61432084368712865431120465251952235704946504858788247401950633110749902974) (-555848563751129071223808695911269665213380132368916925026135893771993037333) ;
  mkStep true 10718632221302724170691749754028171965647611807664861372502631862492521406748 13605141512385405821840016378846917855432557240099778579158819396630603654389 15150090738333273451958318054333798002266631928315556501752925134871267599503 (-5204836676468311364860160864761149308701972097625067332242613529155376969576) (5248894457551987562592043196612875827505373886097934553731549539833160818036) (-1457576064650157224139838587396666474315996061092886712553327258963991873487) ;
  mkStep false 13455765690771916350019720856310876932126134702033166184247194136644153967629 8560057989756786740008072204404258349477423149178036706037443832879713770486 2366549464160866045495223399471326929509180175149969006307234524735175224061 (-6742774431111914196120968384337722220450567703742327042349088008105684397683) (8271912523316235636787839610069641683876377967586313992735619909834535307119) (3101457808575588928101563016449401384602363553429024952591018916519552928481) ;
  mkStep false 3535273722270009563129260751130632528772951218156302227743027265426400840840 10293409142513447465991257269904923649917636103056320548955998370617747387275 15916873144762663633988000278374405662045683958388191567052502855574366021275 (-9278541876885298261219138811257879730503699949728619016989400559535356628676) (570998794400832814591207745228203277637504818294580712268540847534171086191) (-279961750136233078189565540353998320767692487949258383388591327306454459712) ;
  mkStep false 20335747944303093449394439970875247257041489993833237756970569797603494901629 5241168360551363709918533177711193198838479908416093098130866097475009021870 4747079055219228743433281041684535784581582335113709576587589290791997981353 (15053754075667135919692334521443170008185258508235809146761519904189906657525) (18893368776818464919603273840683871631763558820425027109191371033296998893587) (4693894146619377990964488399925411891240942394802370997212862862978097822899) ;
  mkStep false 12621937206785184747432503677593415215415139749736567148566952002471027888370 19362478818188724088229418171329043110077156734640015625382175130474248359041 4684458110783323986718258061627789362479515367605477556882564891503012922314 (1709827982512953468230780163881810474556896030549218501993992431313322114440) (7278487349799817446611687079751765368086682195505258678335843728418035607393) (-8143106548910488642261892874088534476081005019749328888637588505060099439439) ;
  mkStep false 19256950760586884402772805480212057235362542557861743691106316050431727457650 17884559236615405798622090936999203342667140361146383450381340800745864262470 19960915343368855065046994977314310616832253749603734112448294046650605636478 (-43141882385203018909147444729311133024694398592112630880438030133636192846221) (16941979069172619399695735129598914154443711688491042101429857907736498741156) (1300251682015123806159547700209733047508308241777566737846476924202217841426) ;
  mkStep false 8240436960223177945917111158683793393699952873272034117078909203061936739032 8778054418058491089808947508935519775588683908284511353971940992707976293545 16529287506185029124430727043948034786827391777477113399325525637531946604843 (-28809943851845681910337123847476997656548897266395874277954734319985910654676) (3102341366230744386041985916258489786770374687017625905786487678363309039133) (3428396665948594704635138860412786971629259283380145642723532753349646041913) ;
  mkStep false 9898556732277886347930171609408538709726318929975272089637722288247776464033 18956855974700164532360658218753261946341152280938109124175943467300703088116 20637993613233397049521747246128155213852477051887560274153324288316180643273 (4389089736966529832879528253527064161933233298785080497645150178291970253061) (4476440889103240317479588952202952902830904873577291564935570075228331101101) (-4603176475378242982855124323886164474128627201284210442786827726114055040873) ;
  mkStep false 9699823188754706428390654615614434733540850682827903724365700754263773476753 7046670046167359505886174628031184935877533943450555387507862408795436784696 1529833479659385250666510326716540734330695175881144589878127386409962298987 (-30962621863561290171142606903847471498436990813770295151797931545993628737810) (4298498076981425607106144506317523758302597671674209636697068412526355494007) (5278025208711272213204257917798180061815726546074184640565313391491128891000) ;
  mkStep true 14518155753498000898952420750485604552385706581985950089385240804580737921497 331297811422939822929681101853770930553685204068002276417947182591883936456 8639951647303408664247897211508684191734058311446622503160185422293378999038 (-4673954591640091078654255067569300786161176543433190257980455150585861789210) (9629683283257331125388910535441988594393175563760188640867122124220417324432) (4454209532377274251565759883028270784165471230330847722386969177380592161985) ;
  mkStep false 14303774807405225205435663282392029387301021649618718442602334372502704376159 19145049649995184593203097236786514291321208394674448737409054832277511231655 14744187429039630105864187663915364473030390007549637031818354435746444036412 (11277221846702432031684340127874882157172459448210498365282751090714687878172) (9347391425567088564419983204321183659898481969666313901922614744302096552358) (-12294621873351418028638288183574323179266434013050160327924207319468938594477) ;
  mkStep false 9527723557746880758723735338782188858151243568679546881903231261587677777201 10965460073278865867002527184978974145631737410766771548607921489899855535021 15111813330574796988278204853704837411400986670048270630264796869500463663993 (-37400978200063207207807564136530349365287490543201666887928336767155598728397) (4147318573005984685411613167971883539436342914111628930180606134163996029290) (3560489928730043637261459413835087150933608294868146746069892573870451674163) ;
  mkStep true 1817693392950902590941711838432166998029273101294302755822486405717580123217 17878854673345847465727726195155983562091405189322092924060055551078350650586 6004722894333629572881026864115495307826536996446080752039571849602381202774 (-910618748273740995530203683446973398075069079674400510496013553279294591203) (150949041004483679961271808330934232013871199838664458499214902332561499807) (-574117884244229388325294159323546349224893666078967249028104713062189844884) ;
  mkStep false 10642786066452778050953928500105566333987744547311015169680658978963351637873 509314473603146770326372068418869153277576992050554285000803539298457619561 7940164885164731043992526880504955703332967991775375540282157501198672904041 (-37972274698017940371630727836109162607408019185214921760607045874657103803648) (5174873831558658093550935838417881372160112061650571452649616567640695478812) (8445643695609228915622674277389631751458792559314870295859140725457761643470) ;
  mkStep false 2174257695259565893384218987521165768195640475970829226990484875319172406132 17240525282326424502339831661406395668678584525593446164610324781952281964353 11933643784695636961149078866703561822202605214669005315717252486665265710489 (1541911139461760604790483130893562279855912578626651825546290133588017943267) (215978804378014234074736616024438514147571191192371852011142348248848933403) (-1661986485844387053454529451733195126462479970070542394184909380830776171278) ;
  mkStep false 20599041951466750031439379550707519936877215972320308981017040410849065538689 17563640520773621314171652199362578806198404952176362946783083390726893694102 18062858003001470974893200353279361772092553945791637047937579170164932105692 (-18277569399447215887111267979123161279237910257605954529842970446026949872295) (19385773988473261106347126497288391193990944047488688865302445722580090610511) (-304083995727917245746316778820914888143542171331270374642107818131300604774) ;
  mkStep true 9922074055667812073395938365232518727608174194776485717921367736335143923002 2232178316091693770795824193625487635437425022850925879029670300389463837942 18006054056575493741667342094556994412558285186807712924794823503865622282422 (-7961705421244719597456477314794141452782014442365871645376555521968082581464) (4497736713841741515069550066288048895510905151608601392887388291839285549873) (6949845369828149662771467077090750470501395493142689058598913934876583398882) ;
  mkStep false 12341884314877245244176553826247727832526401563663970628155747134196510436129 3644758067896688531902034862650257799893703539154563289798692930516608191917 3352369223349487144669147685763412890233886572811269057404549684313362388399 (19622836546439513918361110462223099848782623080850220701724605100774801347648) (6959083437336388596925268441246283772046657943597902358888672063890631699480) (-796495908072418136042991446696816556968541150256091344492162367643443858212) ;
  mkStep true 18569574017090237990124756326775860063988897226671231227373412474016577837048 3185014452148977754432709679225233470997630757253839668756383029530380820897 8820781816152274402417021472603542960782809289552856479948720016381875464351 (-3092144267243643779549097590531189440123695299281048447170264338407699106037) (15754077711730763227683947544024150606315090263614856872249306774151722187783) (390037845956815329990729436221728263605214416653237654981672862992922563870) ;
  mkStep false 1865504035259318403437949426836744715815135847630029184065939113386677096145 2673927151757028324298031680995680545179815567514678800444256663905989233955 19774377806469312507759164295526487953847112408526458932594312968424507567377 (113186653568342561739794623103929126322245666427668797069772938802544070861) (158994274960563156917298731784585368652582616429180803714689946248071923172) (43559248991961483969803369868113631093113463335586830056236875040266914914) ;
  mkStep false 314544640930824261517243892777783940005030100602248038450321645848529010065 143305081437531267837810118554704713691580244108306932058352425425677333999 1069729831104410834682234077392058278204897052435680836219965217157233989207 (-411627838649826014008510120968952840153833546114568589234473461970205585055) (4520158685994484740431653783073135732765650097785564033720071292166032052) (36366263619286025346861982892016718456368532047564899104439303287659997332) ;
  mkStep true 15478772018739692109704709640214860751762278696873918486461769515284633942449 2364005032682194565151257719610607387721623920577269205690647072366275715835 8926491462960084058518014667975690946884669474130641715646426934469004750847 (-101341468919477362728031645168458321802429924140943157475455082290868018559) (10946167977529656671074533224841531772586318997368969259941459077093282698202) (-1570418807421340548621411405860960839087573786116397150873243459827769095246) ;
  mkStep false 13259690029130609371563799923043480234983736212734203227626357903227307309973 13609853745788465261114106685736536350443777942850691951010498211486354778715 8781428246963256225300715065399081687508596998735336782984647399533319559891 (10049205941168322701400920621378175328564667882243491118673571850644314808989) (8032594516521441921485028348724140682969616525898965999114645857815918074968) (-6812628538681607452767999972128177301473270585312151850314308478423463685566) ;
  mkStep true 6792191660636670597516023335512579417133636099851336398834071986317822922275 12267088100391532748365499369236352131669436370930223695668607309821911205880 6619414379374760784253845190515848343951103900810114994243946947501111031053 (-4223305436434119142335885922169019799662993037080866791068655904840681091867) (2107700824819369849336739888767111830628631240886594573487654163784158424163) (416676737016125708329758963976324490220641030386492258190477162950826104207) ;
  mkStep false 6702032963370721456259171704270591253105587375058107143364509537570957809720 18649801222377818276321524678895140172996306511972467186123708329929416788577 12854278909070433053759621891438970085500147101225229139593213908436131707276 (-16571329492939960624833617405502590846168142958830024248584605259323118261360) (2052117481750755325555067832487160478978828792674140153464468721209592961561) (-1954343890908057986632829972914374183188091957191129396993153865086743472743) ;
  mkStep true 11803470395305010704978354375298717074424356823500110095043935230202407621969 17921148677036471914894518328360980104973313398151551115037615152912510220400 5685387171315336921215881000136798572770126665877283463413259256052791214035 (-10057105903639033993034423783725532561827066534658195134570685101599274560890) (6365148367029909788296903960930179123390924360645288915247083505218044191801) (392933722353086742479771958253496231388973242646902281181526519188617242894) ;
  mkStep false 5146922133572335472120562484413055231850708868810715034857930940088808860965 8164563560424455395282834767141870687279711155019247847535758949637485803993 19538002217229381140878980929199600339279099375530638827531118228978954737258 (-41345402866381409511980089302923399831376195632286657533083720488590114535150) (1210275653654183520369079790983538850756787073301858709702228915339720068704) (2294217227888111269200575879376716138277912716311921784011828003881428381114) ;
  mkStep false 13616687142537917226025259527706857900749027148525567266953310403041218471018 15014216833986610683039131171541333701438049454045330972622302084805633540951 9111465447071315232627492190215063112340635454082559746533261871723631655144 (15172777217082742178708641896093977762118646681536308617792221241728221209827) (8470948071227109168955519269448664910719241192871346984124406200780516144589) (-4261172822646000059772970626972896623955490904665279973946945747838830044562) ;
  mkStep false 13709889499321570936629500826886315648600117752958646342946151110824058827399 21673005861711667308902399388489375736909212278961375365092133849100460729967 4455215849530048806006228240499789538093773635540576044845204943944421659898 (-19482868268520711922051188425790991291259917871169433385637635825215139115877) (8587307404443719665326326644184923991659608642577413318903458869810433373004) (-4170789875822234799735250855004792927717670758205127608994443869992571773222) ;
  mkStep false 267846985908885843155908401674644422346017807094910464694032972987794462745 2962515052219118157980391729890663689218794185091186960914729093591234065801 19734804906444798786528440829267098069792024891343728241763028765457360745745 (-64270618944087642785594454003140228755160652597139332736084907255642116742009) (3277650393434545724557241867847578123616211717375813132384436077042494630) (228960752927599758744757793993774423423731896932914521878069438973074356669) ;
  mkStep false 11470978575758347239033437596200786920986675967802576972403237314907909029268 21468380116908915125206946338382608567289796515286800706340223118106067351806 13075888085325456713067020615388101227955353070579232226383966516399328281685 (19481945844175056377956632483729009827794249447569152119659204697154924305699) (6011599480870070157306663126960235006575164148534507206346642579704440666752) (-9698374735965890776958746814755452114081471165538280513117926098100650177190) ;
  mkStep true 11346491754422894200258324431524782914978776264623821312376481115811757725358 4245250637531130192748609361509858892538627214918641801716651871295382095590 19646158723196270449595058839120751776501968602018960529872625451499365405764 (-11128842063915494712215566851827415762506479673711399573113323641157544428229) (5881827787045586063438836923807580730466862433059998895710812845667484369449) (8928176545159859945153146915157235780351604660429835212459435686866841796113) ;
  mkStep false 14091559255464784909640547353334213520674974159753335766866604913244673294529 8187554712918960478336683342712972955424145537799272994018162371459021266978 3483550431885083700642455236649104810379547307781524128013787382211400242373 (22826115535148680553656656410272860502163558127468594612950694756207172664964) (9072086937857939553117167885917683945735810929435947560708715936919563279701) (-2538038882639635521769298440505664038673289800766552192516667423052465784083) ;
  mkStep false 19184563279571669434576131183561206653586559811549444507128533978047882581516 21708893960559384613431842027340304581904388515436300844355279830618417156373 17863939529386146897666811414198097083934317141071551213820404031662587363472 (-3081442833483125039704166628719628449512910556569135698817244119850898981452) (16814847604848536485581834606815335536468272029857801173715587840613635597969) (-11851156346343856444870673636399938566733858815109682032582246763570224480255) ;
  mkStep true 2124362283865619046792101175746161232597704946750022636610219619478867113707 14931636117504991279840113875419881387040611734703383629772995374637118474328 15219395098062141773775936838624970711341598353900845867965283749182455803284 (-2106955584524506290372943944181250921167576832770794392076159098892227240898) (206179871976700497420957153473258888618398110117865474666101011832440153309) (657766410676134677233475507158487377630558763486511349521793789369980682573) ;
  mkStep false 7766187720585839947423010147680478900568137519669300763420474696813772249507 10847505557317507561445800082710548525979326612867323401467419954595254086233 11235830229634585300031194104468928958827795117798228633469899541890854018442 (-19758000462545540406092145932465493384391997082447483326810175633642885175672) (2755528256175188792835447522669277744702905356210722641771497449554934515520) (1449094145725372281891525025831847533855601826695296849954308569070043407433) ;
  mkStep false 4420254719860650035027711946769913986622943513414698912032760084608467190081 21200181465070634668901868873553585698868669547621903726932279226281197838346 20735716798282009922929711394459324368012052113675314525828862139559127816081 (-11589540043265966517210210462931544891555943669482880543923101628683467765961) (892655107257977684273882989689362540825058780521810431530101114202837050003) (-2090686987181993512546443935753816511827323084382645595727629156460680301972) ;
  mkStep false 5485322837364451915058347233670668961056294657835417037227862504102466236260 1175712074005182969851933371671000318812198306717910431543463914048202587290 20912887166496847990244845363369429739187759737992306420257543360507846517691 (-51208262226126849961773354828234684848723039709545377603115822642506286577916) (1374654274730442711310334204821852735546148753154353166667461845898455413646) (5018250204004923805236491117490477247249282109137429404879424921341952006636) ;
  mkStep false 18890141350669627948620816706109075410077606048071263196260017721371071229738 1815437910549799610237288107936227451242600248566566131308042324047900670684 14516134043794900929807530588559053370052504754462199710202844844165170365921 (35907308650149881290552287695288786029424383639138586430636796753516466491152) (16302699231621483051951671826320394943373330781353422035273354241344709534860) (-552100575124316377344383493664044318769306745232572076598107104203407672848) ;
  mkStep false 5729657545325988099059072772273885756109301352061791257715023668476015361132 21037827931955344747700664646026121676584576964591852573675260845006706513069 2731109455351658874414535826312900916261495783004319112378608872127461658825 (7148015964593249585523825182399187043576223092106321699149396248775091509272) (1499845180763584943245385889941668138502080532599938864870726227411504065789) (-5031820629468845096819086102301490404431345966740341914240283766945360487802) ;
  mkStep false 11649930151660213647283869937137154425540676259228674828043121138702226748292 11518947123138846150843072602057367618759590262024537105441997856666058904094 3846774938775249394319848322581375776109515519108974316750604506915749321559 (-57754117171612167265924880358391291783245871282497979825923692398851543773301) (6200628955610501472484161516117506977260702092069900658215183748573905716904) (5066386424620872713730944687128490870747109483260085372205527461790489618052) ;
  mkStep true 5930083764378129247121670812225612380536251336631517813354387868777277235801 2853789530178150142563755136468914056564959260994926381706343505463210577269 4624971915649830534927270412909856891300782545077725966777132530403616737527 (-3120776835199465400164956050363318617710844156614409407528234450864085008192) (1606611076935025071231279874891901209882629539315181830305025380552810388539) (2347612398979022672402076085078716699193695279082445207615501671758826716533) ;
  mkStep false 485831291581834121553438223276689322933778890795099329607673880031144539753 5694784260622112350275208867486142799440269295625181097734280533443605241013 1588882997021653122954778482669216264398534791968388211599031597601425583888 (-910919711819156876225595150319396875536165040445069010754908428805309094987) (10783508080666654580171080980623986318685116262636415641506580533590128126) (-63058699930845226934545647386364724490375837407732966907531115755582071809) ;
  mkStep false 15478635426186570432263255123894478455076785983033150959992958380214180088749 18154201016970196990165133268248530371880021517673851018793913067599369454767 11089872648052874581106880861001069650386164939833419134639179732371679170151 (-2197719676047988906754712748983318392920950992016768926448755831314501511901) (10945974789280344487849972255910297404046213360583440021772954830928619187376) (-8810884031378914948014956011054533070282704380803749691807685859431467922895) ;
  mkStep false 4303028473821874644823338625246661391444682459226234891532446834819165788045 6225318413940543388509707598148184625549374950859186798296199530036527797852 9183773041224670207985825849418956294201413379971876951922817108508033076685 (-40811177643304466453809170673841737993753290296968310728766819333302269589419) (845936065080125021538202502007604189732812862547769231095973860080516855833) (2345109280916970210405195815720748722610588442352869393676096186215014421733) ;
  mkStep false 19726335964727099276557957606111739543594859215156704057934112665595453728709 15929805198942522781854847079651094281686759303571327104578838671720088362463 19293629368670104870368024711773298551896648293555178159123252337999195139680 (11241679756840372236477538815680910664997546253208279995460468546944334511646) (17777961112352517273472933689270598411277992125483533027799137187979759422958) (-8745972338076361861156377463114475106876800331873857677596849159833974230308) ;
  mkStep true 13952120476412069696028866591235895907451024045643047631388569314232714201678 6278037985194996205574317844126115031103802854106103924863287352549367198342 6303482740698535092654682434154694228388846968391298117744461190308854281274 (-10154061365399373520538436091942339152705532777875646547080525697849447954826) (8893435024826160656602563854200547989827947345714230371012394221736258034866) (6152280919257444129689452536271994103892127748602397178961291353885544038748) ;
  mkStep false 7264505221219466891950116966220871979766235744179590803592462843754840003247 7640136001220317478483750599501042013892553990556924241463290250475369579940 10902025582554779153031293939836965350235721833902169211357766309821241393965 (-1217910291995543071150071556428655181000264198282482857375808693520193383392) (2411022045859196119959082126800510957697227546814922129748378827933617497095) (-452067724538965996444081140075575765551435992188170290646759563632944014415) ;
  mkStep false 5592595168279603563561491933910974158720059333206475258634469126058772489705 5455808482592089698570290059293146196380262509386883622111378368216101581076 12211218530585429756793055267432159979536994732320531165851941607294088623231 (-2429331740691123048609226011609548905588419681836714896522355314018487687050) (1428946165272340201579091246357953992084501439539709487981017051067649419043) (558110561827564530349978266276994885793371339281094805855696225408831887228) ;
  mkStep true 1253389426113512033032638000792529719821785272789699634940351793804835403393 2799691475208854777619649555846113004421909428310602018825531570782619612981 5050047918747518904825056511595305985627558803815465860749552529772425562960 (-312416702565888054406530156512762477501327453206839822001413808919665928762) (71773009039219817589438280447780673913615385892154251173824395626674402577) (152097589151735435489706594494270163177688827329487647479860847889980995568) ;
  mkStep false 12868976390690781608474106480206551204270569970938870377335505295676988813445 3264257988403743147898633347001193707874134821688103855728479530455505735349 14648166580416507229481898341536715820105999854954929027359789659143142108306 (4863938984537608787439149888011351913182071634307013159993303424429837723299) (7566187670424018600612276005570189637641939234054169078285976957384468098358) (-273137296822592376814056990317952750851727752222802306127416873127537889422) ;
  mkStep true 5002876392314725038864707256145118299139765805320058086008905515684131208030 2087667884372961407854923009192551423063470129066499407063205948633255137429 13363492326566904034786676424001026374992182791446789501884550767494980402005 (-746093659698028035430004877260660195257783140273823833238740224521549185592) (1143480193605729294006392933477603789908123494991066942157091938947162965887) (268926788200979697766479882539099309851036952833375519120734819136290300383) ;
  mkStep false 20046758141934366174737524056408336850849954762906203283546772332761969747496 8151492244731495291807921824941546763200371647143783676155458220643367370169 13226693498420001207648539896405392655915491475404857406158750876890000811229 (23881054714115311559020865734248010303809590546033411588293996541321103722739) (18360199781876887625551186841613633248066369794539587218280726080302348212283) (-5553667376547282728069707707971034727613140360290921532141613176015695211678) ;
  mkStep false 18219197621047049069119298466470200551529593541828293317690510583552477608915 5126838032551529383611586414191555174662245611037552429751953972592552385522 15575471517022980928393619837102566295617929111937769536157506132851913646997 (12911909359216764895280779568169127221155242099196183143244206688099378324589) (15165180864373034563857283042602275483620067205287872524163213514077251187155) (2517642606110598844962081651656657511150420699364103611799083560610211075413) ;
  mkStep true 7898837976794107992040981939715733459982535872529168400249534854249057230371 1090976545881187748601885533280343331621339772318494385625640447992069295414 2469522418136217298041861360641115891468389989686843883769894658508966832645 (-1850128545699361199368137867624192923556671112025848786466287530193053950112) (2850463682670296050234694711329224390172615828284675328949919212325064065888) (1456426455364603374782801733009980301400643008045496099886336477452695795222) ;
  mkStep false 17936580665030635238946782049571640464531600201779315614740836231053607362286 3177208533240422989715876712061049177029749639429779621187898536447701612207 12156801019929058439153159369693973824491577185204015730805281859812035186019 (3884226209514407072751700466044653485562009127962939697495490140808153931744) (14698344121860364067804821358658901557125459837238301751567735504143277021967) (-1709587587561874187131606631812453419559593546261370107142893510409506523114) ;
  mkStep true 10544463284398776040353169455113446407675880512954009342128255781970131032804 16530704712139109324989678057345307087331674936920701453186731925510043421935 13058234191291289729679769859418760767455466866792616060775658083337436031099 (-1530591510784755348284537561287460126520295516176076001596090628439751962929) (5079699937863987026204126707179961558235928029789566310252069900788982743431) (-6432926160459979684780643258560929449478634019405079539623685996774167804210) ;
  mkStep false 20574343372661263852828028007651175778712662279634405003112723552045615875140 17794805988885915203923057651140429781919048145364337266585574867871453726614 8487529189285209044925317565659006939270903074969633926411754778507437783625 (-12904800458821555907625414509083695555996600835318225827733761988202937113885) (19339314155764397737498774817254372973592259868993362971689059850966918891652) (-1188220264088417602966826354800238575119717015391227810845941821655850951648) ;
  mkStep false 20354411741989881121162055097369926713088303548971263060795118848284342939513 11292495220406297685585300252572389880941611119104429412814974931368831829561 6411934849955116063899182425367773681517889620650767577110604942410032039480 (-27615192160636909736857205499661070234951155185357748702172201609925498817286) (18928064705252497341924942959326028362317713924138619148139978817569889211860) (6046657624869789589522209724535483287703123054615883335132730660265793664748) ;
  mkStep true 12800487839643870266092100761705109047352668066498856126340805060860503623217 15551552634842401356335401044628742245756957869332041594857598559979248221102 12793318962103675431811282038222374691759665001588069487883080446430592424491 (-6603976783080203879350746383396900559709337164269838789753392003714304715374) (7485867636441390879116415493925164289330868287152532018241167216329398470975) (-2490744138807760064444581821547754464809330714383805186980064577577200507896) ;
  mkStep false 6455896849461181878201625997511168075426857465494292471445528321745760572922 1945676313749557179759033525661438804373028735098930772040740003905294603985 10360043727215236399822130738588416582558072437735144197779399534524523417113 (-25601309167698339937831667709239491555137405754149567980514622584174549478576) (1904154864093965035986474540795455056601406975653689573219360153275538458065) (4013028116958240118917711721515933918036079903346222886945283497255217074690) ;
  mkStep true 16319533291219180172816269190164771152418848397889562944383766893387952679212 7857972547765742377894721099524004597273900407687308246073173910480728452461 3281688510903311759081488368788117032401871001598984658520886129003095011452 (-1450665983655742353464851342586622318485995538425000067426031776995461903759) (12167590080328434330181263815238999766969058982481275714052643524375807790759) (-4408116073251026587032415095113072270703091326745438806580466433369179960819) ;
  mkStep false 8955771709322560995059786507835463224056573774421205235778324899693845672064 2325083939044307035164395301858650847676271880787174354416188905244005703997 9350357594669614054045573140473955368865517100858306734184238954273089498282 (-5777672158303305755089681703928989265109456845393884794722492406737421099629) (3664334655784209416105952897205134162476750440627089336385137904445089680719) (2263831206687295256317346896400664258398690575419245364458264627260901110614) ;
  mkStep false 7168852382546425571332420526672883774150331210896816397160466611689603638106 21113994601722403315088586837789233211783072962165584888229283361627968102595 10241846827268630408253697245520960607479611735726138791433086951090445584192 (5383923294328320200998311383271604269007767545101049489966614457379194439979) (2347947470413966620797748571550572384215143416750970941371420346984434211809) (-6153756962505476692669069356329968614102697578624381762511400566561750611914) ;
  mkStep true 9169140284059470565250564721654989177647557242420799184789708830907449599579 6657606209401805053910023940221531589418320510298867725776034698157796123265 15488461542064826297929593143933386393704404980938237403977638024555675137638 (-8844802188719457483978166126187042001020266948500100607974156505980401222792) (3841017940134794357826498676080437702470274708010869426902983807049142390860) (6055883697296442074588622477329605351677496535741479177819190851534797519280) ;
  mkStep false 9831743387857279898628042966081455609540384463470940045761111745364745998349 20162178091620398660293863150258737198603350864917045217950721842474653336134 6797624428335188326418256386812739195273125753903473070939075059096134812461 (7839185557051543092177066449858559744085122153994776530755846351634681886303) (4416214613966987182029178440424060596787023919482443470001967812317527074839) (-6065972772975220791309394955321860402771076163122379556976635291452992134860) ;
  mkStep false 985672221486581034331372490146877343335026715565289196773186606270855388714 4631413540302581572994434551248189597395512394791305102605150733219417979071 7576422400766764093844050206919373585456554920781991823602854482891348625362 (-55104460605388160260486370768168756414850254854356312274507635792787765687320) (44386830587495763708825002468716016739196656621605800704150230104394766879) (699382005504771737350403874601802772847398443116115690550856353102725482273) ;
  mkStep false 5989355928629307702810161361919811409069796241975896369662326641237654076727 16715865214850939569917178835956938368446730271339480885797949716316284497270 19886146467068377022459533841058309844343600081602413207556733814015584178753 (1206392256262069607806933932382376201324282037324094891247923734466833112575) (1638888267543819986980825483771618069210587501900590446328507612116462067899) (-3306710488593396284155619808539947730705300592545213094616571357851344000636) ;
  mkStep false 5304171422114770283493577485940737507064940775544272107559296637472652387935 6000142419921353957423218989209844656901064084909382944240206165566430571395 7896692869157960685941616234886911003127410856827580502402959505712875618717 (-28659284975178697622147339355251833848115558248416707676239369456270133741730) (1285358292116524607131117553538503382078547617213242517924652114947939977630) (2596737935930679176847095818238343383572203954150638632332548650242073401785) ;
  mkStep false 19335478741430987178293489846056542584822814668345584494549141803494862283179 18497637619334717018270248530313984136320665269533824724329578365335002150421 17203450320112181681547097964987676688463094113114617545209134904322164221786 (9017057612894759444677590526260334453500779001749613889595915837898378558917) (17080436303150085096379346753865105497340321958246132977024454190348778849010) (-11039947526362923411125061514856513215874693121862447500095382432995332426779) ;
  mkStep false 13748776309323378481348748306257465855465632694639861064055618368527987510285 4574373655097207362943615250369522184296293658601324028460605312298338111609 12076469179615372150336123423496407387929443862232772412204863606128568638110 (-25284579275257986994485984907413117032396973367630635873966223620425799224641) (8636090667972729448466918404516329310633070060062774355625781443845150527178) (8745692509938731524115721021583237836880537560204708787002017029822824856428) ;
  mkStep false 12836677502903006017116338853147094636644763074753541654780383892572916599956 7769240515025628565234318536587965219087297833461899151255711746031105659540 20691773397882802856169488034060435696395072926012856694843854847028383900791 (11296877456240511707681277315358528617629975540988784957447087185723463620219) (7528255706881674411199034887363736541547577719287229175819682552502517516966) (-1873676008885007767577191464700524644005099778688355609945076393706797114439) ;
  mkStep true 5383182958400906500514749674743332705892135399700912851648091588971652911264 16794399563592060408807198299571767547963994438871301290325028734636838765028 2764260279601987530048224165503335592637505351958777659743325922302511097999 (-1910762932643273741897494747898001709159936761076735833101119627600550807229) (1323937190083949894387919157119166750550596114451277977702782302754103442369) (-2219642877300457376343311463117352012309702735625030783980688847802100978634) ;
  mkStep false 15795016534262656194805986551869464362537534815938881981764031170804026495476 18059112821840630957264205138423471398188182055713051397189683632459554713041 7289356017554583290733909121725423826301256285771941856565091720847956162369 (-34668497645299604010491191703322042792371561856170792521912903014872488914088) (11398016221695305147908310970818074298444063684970807561117026234840315439313) (-912643693790426473550361989792491053800485345258868871323952757114139900332) ;
  mkStep true 4335472047386331353882704339652967507499645778239547973492255467251489141281 4267247532970207687799675758324412152542427034738568668108604477817294851347 20816845207004569272201291652769393272272404079265302186722239284515029137108 (-3577024400639201047067764299096175440698495223562360989166721191235528822631) (858740374169138040447629960023478789976049105489909545179072164870963193284) (2731797467312688078082134735201030068464652617187626529435985370939651282639) ;
  mkStep false 4027689159150058973786671823168059007235352399363874230026733312205772013082 21038766711230555395497035620949310296843337229807869892219825034256632240884 3511661231116752603623454357192773242307152084073724241735305921817174766690 (5165300827251509606038901842820576036773469397579121499281280933373872769795) (741141262810364015483600588065857157876819917964782984523392964699748961062) (-3086152980496429551428282944941954452643915430403347723016109829012269147504) ;
  mkStep false 9386943742838647152935768828424645407237255688672131951811497350153447187658 10344367969553456390416188690190150304287076751810094630101700012356696465308 11906896384500444147301045382321264986130471556857236895574554835012339036520 (-57654768760426540788914176493311663476280634806230798731600292380432348921016) (4025664067561277278542151670267400632512252276107545093774127407461262018336) (4586376345483767824044623040258803307555099960990739534646240673355702616106) ;
  mkStep false 7136079699857795556630279282984163012764251905593940175428728113651526563394 16290884305015216027253985735977128113167431432844487318960935747781679334171 20488827089214899731253991252534653963255850366962721192803817287220357959727 (-6902368719028542896093998658942647927196314359601347986209545307006921707504) (2326529076860677132643386452414771238847077941679579526233310864988899448903) (-1938703565874478191645294208756004994726803883997978958973314242503864365443) ;
  mkStep false 14841035977793885017990410292053518902810837239028980168581922058097003553368 19428776265611853804866350916260546831697354763829922666671949538271795035669 11626101678136789874890121286472211523915954666921526546337040848336080730179 (-8590360380750868395191244031391994324812295627073335485610783171840833170797) (10062769779366227108867326065114282352721489548938070394470263892989389815011) (-2127606485103463180259891552024814480368861965517054095594229381460986286990) ;
  mkStep false 3130802317667401918057853469285237394976072813415197574225793879244061482419 14132538038548644590892882495382537872992883422167565578475930208251434359817 1787503649609316690403669977829453996224162065167162819825444981054573310181 (-48411103421289434306976717574339073345666585512665961638273080150841184870207) (447816812418616819976378507705172710506272186211669455274423000195017480282) (757551668870660747089561816545224631409068612207434842720394682877117670116) ;
  mkStep false 761726960094034460658167783722482694760682606778461014513694879124097476448 13359331191965508988470024842149735614136069946506021791970371080744324284320 11587331713964512560129986040582507998085529754248582518236232167435050523101 (-27250369903292487891231065392666294097211397079482467961271856885112767773877) (26508658786886991830601350665143901956823173459932653985602031244198109250) (26908167285068818917646239391879536525766091347143288680026975151713099378) ;
  mkStep false 8635768345984004649498710272203270192751360151766694149292316141822848482908 3295730211560957427849800158061486130967863751717680536425721735331358082240 2340342747468353727883851831132639946529584575730114779689122881724541296875 (-15318002764922312741645080570621148458627838118327524753109318430271292170648) (3407148548294257278109478094004223395004271610342261270912686332646173979248) (3970484396671371923854603998701137021230658564002382594432502916666282320008) ;
  mkStep true 12698889012423881724619360332757905694901911786045273591669128149843203837270 1743358892238446787528410255605158798352457918483299003806164294460772291436 18436519999506280275149963512466691064152435095302999004089955001151978786865 (-1912081861324304314256616111464533360915479623320475342742904610667159732279) (7367506980532198245636159677997289914839765433750657801620373815424422648081) (900638356654440470082156315255777019303206113804751106653380179825470590980) ;
  mkStep false 14219155389869568786181207062545721345751288291812423381733539747289328061324 5663034206170312308125999507075927956997838152965564335746385339304453308471 3424452776851608129243898561548875626180610419697879402670959939032586516312 (23537091934602782790996065973559201010632896690126836014442811377026574201304) (9237122467303251292325371243203052685435817770569854011319259926941399663351) (-2546320081194786023851290067312698515659558753820410909137154460096177026699) ;
  mkStep false 9418755640258579882695446378289766051700515158377823310044308870789251462552 12674218847944266526227421165562170880897249703119929719949943087180130989491 8823494984394892019101350380783501343351897702169817294253765309495826470259 (-1448343826996318171705339442689033678405924656455128221414547931033563937525) (4052995863137013710876661043542814206294717358730627782061130269560876088937) (-3016991143430860749729123663487440524566928696379865841895056482825827113917) ;
  mkStep true 16350931292092690191461743601247771159295681020701217447598080936140409627706 12053269439053162557791929048256339043797953948105883383317343929131210764317 14734145423897124010836734084580132488839657112232095148482368670592399668006 (-9467881125821445804590813321442354908300054248555636734365070142799210381701) (12214454841539785373588711710034970234773453733535199034468400858231235070869) (463860949464640277294101326619902664237719075898132957914138492902728587013) ;
  mkStep false 18341932687936492397846817547862600978583226200736745602246215069293993943888 16648960279531841921158553278012524172950129512125314034845209682073726488699 19775715529467074218474266950748476671193340282350883138025340955994742197066 (4781630725698519038696270207562588673668161611895682837834947304256259341683) (15370191965551924076071515433517964826098401482837306261917387371396499345117) (-3851101824124769733653295560982343187494924170067841983041308868898466825136) ;
  mkStep false 762023895039029982445680332729936659804337273893590761850536835512525176358 15205411462761954648932020763076712999567027686566369650926451499859832054899 12587541717284698677070925448058516964705056850000728101325599867971167269267 (-36614382630479573570898051319791190548928868508125621717231593211007766537109) (26529329924310175762364310088627837593047740262825557094957506352452151149) (50256144290559839804616169272882364943992666551692544185972382109476134549) ;
  mkStep true 20728013296946518266902944795375698643097272412332459508755011028117030920596 21157814818847603217167214004612177395031769480244576857430073223383139008558 6586821375488579255792301586377484145186594626466298867626033788168521101891 (-14399418575127876893450433725348246384504911181905863126937272835077639735921) (19629283983830722835795181591324044032755152623913152123359717204184729624226) (-5636884451445444996721305077738350781893530010406510825685745786710707204734) ;
  mkStep false 4193750330998122910062993769860370596719052930915285259481403300812935817139 13012067996646852652470141889484007192963878445174882939051139036811376289723 20239992146507744330630452917992216124296312902950209008573020372113533943695 (-58831237510403839575351444438783436521249854371533558903629467342577038743318) (803515473659808644407492345402660389760573432995598531136579282224814025054) (1560711320312607983649761841151903475977355980168752278719819641763036907313) ;
  mkStep true 14775703384842309939469278801864456113829173832171729989283683084881099767572 18754563955773683455658872729632968915963290095541263745291404097030544595831 6616281298913110931504288910990953347131152331890379619411082897882024856159 (-8783823272959567955220351653072395907744060391133145485522303767315805128877) (9974368970372032672805723866273208897081099779879589259595916705564318978363) (-3876483712170344743911788678321258377770992289789238127050778651560555018610) ;
  mkStep false 4151169182148102104391905256177773680042066572333104419552968164933441583040 7453054499831553501102891277063833463123306800972066274295119658549941318175 11615890141423662150778903607058649322017684036543414351880152485553892315931 (-45698981289338254425785284610916516671144846827809552889243064354195503455861) (787281358294253786843917010493403195521934155099111200151339337409034825461) (2143364272772257354656431447678338966425850979159261764261555537795699391050) ;
  mkStep false 9378117900975884655284120769381866082169800252315664972729525419341690858155 14681952093033829541130603319259804852121968634174410812690005514265104631682 14322269518227312371087115668733546699944969267720122432782036257974969566989 (2340357364895523347217586079679179277320677787269167700566862004569878655545) (4018097564046900829136447303177944237673921185026153982448591351240531870271) (-3097254280303727753400615748157181845679933825972879181287093043947039978735) ;
  mkStep false 19819245324851935558059773434327715372126527914950017454146743750828514334979 14179204379675857627015871038073775265356190828146876005617783114885079093990 10107256159467558994892306413526868903081113870117096756724968844547847535580 (-3607690478764946203478628766827043390436202813945318434941310549764772434770) (17945820847594515063955117804129205618949504886809288828789219842081048272489) (455225224148506598481777620723571819765278566221083521065914668872435637053) ;
  mkStep false 3321639525784114964560300276241987851977852404651425946714047237478474731286 13753361556789026882139452199539198183712310689378084650191025692364807413968 13406663038065741359684521877245158787639508734490779749497249540978049180941 (-24488223680048726039389030152242493076432020562001785273122731443350952389380) (504073771652378861971447891420702217775160151136407888816561500991133006456) (64623568029402115579377947313596797257502695651953710694188020733811147437) ;
  mkStep false 14235468443126470790691273536694260924867452300432790046241775556161659559144 14590544886943254237596795071852215509422484836845159186717169483935907769734 16081145635375888814249743021988028646001114453478283076367430992266887219639 (-8486958327854444300111231078926954224977992242351304924986089403993736257808) (9258329368044926593171912406766984310022577820846722522914794959740196481302) (-544479378600781472838891689825892647599024940648886764449503865068836786348) ;
  mkStep true 9641007420848035370569616136571348966212953634976036214046704391733700875463 20391787686659121011345531274155445182113365418571667643127949793424869552709 3350207191227239689689901048695493702847051564785470733713501604949532642008 (-6426626036309873024193115849503145993519391771244548282468976159778611330274) (4246527445491395641198207940535014605896173733000105320125807697040439055475) (-2555245078816237823691080920417728019297731197461698135914936457643300825784) ;
  mkStep false 8585557218657435421233464780630365265871522250803433718031349591431590721187 16653661138893830905514367369668657785682542390928768118829285085835525613688 7829784653676677772817484411427946036602623465817865603835562871586058674625 (-54364721328774153696027688685224066138120755581433279492285701099074433615597) (3367643222274185942483420279313471785997726772526539285270223230474617836161) (1466262027259953627491743356481698275049296967407169036405708717001591699618) ;
  mkStep false 15693610692588696757641932242159772069956680880555281939758885602821273416941 4900894817105709965700254261993087880749194485347325960610755608378489061753 2955292403320217914847098372560668604733069644464492618684487039447843176355 (-26785069367919901937752752448843773220593917097441440001055056046274142146154) (11252132846506490960847629551746794693065960218452005363765054709447877682944) (8426594144402947085395202719895424135081993423064798802191758988227228324185) ;
  mkStep true 21353913686774011298748194030792082154253746936210960414460346276453243499610 3845032153324284232807242118139816870316017333860068257784795935929581206383 19785386667520876515117340115484442402372884256620667724297036213600733962592 (-4781255650588428885537883180907333447258119274178871899421410625416866390649) (20832628384659252930034011254754808032508849197106198812169398928406510618861) (1030087262805542833538561009987477535266253311822918457692006274257205567991) ;
  mkStep false 1652073754488790208387148840518953380669282419097960318517391522634480613940 2537557375977312440627579814647537226735392394517511808870026012672022200088 13208813711759317157740314271275201984156400836313788462988653180269703216034 (960379479268277463208728788361472178141858077449263178958046701014126392571) (124694691403583626672899812973048062050500715851516310481773828695872314262) (98685160657187899127078645627702915957367033305868263537731707589648137478) ;
  mkStep true 12047499305728708912546065955463705641938482044513060324442294173994705448503 17924643494163769224862221289000817295051928733228945396031194257539858860742 21087345225741285204156766307706429932255464274905486220854322627856861782602 (-1396695975292991972353449097189432473587056663366673005980037825344286961063) (6631059440055335055549216144883656821870901718743270736148422282272478083966) (-8469200127733323292283520893428394585770284392904819481894190346419424880706) ;
  mkStep false 15011060910170557417889771932597099141081947921391250146838301552060765845703 10254157560401296032060705818280994877995314907316624662049607888247901133817 18226854125339978394559560578916850782122255504539700022184007688193850999700 (-15112756555227890010871795041178628532475237287275018593655536760030332160160) (10294656860681837655058850208424410240226772003042858339503966362153931580276) (5260455681001841106326139595604020473324703191756482321581458489999795010331) ;
  mkStep true 8355319677076805878939879321381719546459479036968371274789669596277896275308 3029721583836974724665199422228980798538622305517676568633599080516183343657 13581767533832268978157026763351869733392862156276224784170828075821080599670 (-3914282427233840431884231281850111570222818788745099736679039924890455860610) (3189445919204595833340608462805525231710404513321029513542562701036864135083) (2757757780019424111822730679898138496718507516774869762387405392018586767770) ;
  mkStep false 4641457001180236246907326547633007956580958012336091268756688287611104604689 11252501484322363492572404588155419496798824184228279442279286425687651126344 8741261630864509677348240461287025008738571092067602674765635893114794217935 (4501994151238744261131292977516857224288601003329964302645071438917837445311) (984232641237809733384121412596214892237540631566356905603173000235349626561) (-1743661177452247503489860354920199882097826300081855401151302545851516006156) ;
  mkStep false 8132405244804910696359012689075547676425124427514222188382144242429745465007 12945467647232099202514519938761797465888825337802708636794297455387541484477 15620984946569281117188310437921978853947753297872833021680865116989458607611 (-10858861832336275326143928723372778083560353283628206334588406171321897105746) (3021531488524322622915561954599391725651860887203479954539935358795164942348) (-629008321185877820056519178642764249418393179306931370038681694956704956819) ;
  mkStep true 13289909480803459950062782068055788567566197009947376008346165694031942319677 11971932795944629387522825645760587507608130579618617180450125637959294415560 16789650761186656678508975827078114123916127468978459497703347701691006106089 (-7860114410541873801030746706140943603844370231619311055919037501931998060821) (8069249552927138168679465298688619918021449715447268378572634188939737579877) (591102270098793535694419089411499563958662465716817467522165317388449168923) ;
  mkStep false 15345414709147318779075126101359975419153844356473927174583877403373345101330 10508299423663422579066424578978544423346103815511763583038567496404027728148 5400588978606561186040752411715998993538407074125291812548041806479551120439 (3897379218239105308008997568042448254898259606486233725324168492743961417180) (10758367127709383467283243084200182393153805446326364775656213899380422699104) (1026124445498516129021238620035135345493914005965689241749460867699385083704) ;
  mkStep false 1974840344005304778933549425365399062948294068649988995300821556549018380386 17567492830276227205403662930404404567753583819639040936874670365329080030901 6997336790735750927110360857027964079220481443173072435720971996715930649165 (-14160226115645491585930121689949820355039756211802159125925304063097872208588) (178177590917021512872803006895399670301709529022105297434695332876310824353) (-636907220791623222402594824561298392256444745114221669968938707204827468714) ;
  mkStep false 17033296208984635828865397357835571554026068197015775251173289180773384293946 17591420540863632951529239879994299098436739101271779175822226071387253669917 16166548373654032735574770133640862795527928318202601405201899289653712122554 (-31408413941196151267634910897395171817596138243505408629601564856210994070081) (13255206525339070938283238258999327670370081110090090976389101810426704561659) (-18620397462900218335497203811626263641532924238081731524624466747158107185) ;
  mkStep true 19004249619997590756401696736714673821684364415388876102255721249402463830093 3603630477889035234427286913294782844565352417701785270256887429948438414133 1133821267251803015956932692517656756653900876338443788813737445005378527740 (-15273576279576122894486189275486418794588463867661524960094139597765148690092) (16500251104387990996802211440899394041607213807378277853575475098604130115706) (12144759885266821274270731800415790875336042601167456824366428221427137911646) ;
  mkStep false 10875032607141243449954178993182915938133349541030412171067061258676174289571 4549124063693787434095416447863135269666332657263000278173407289362922335978 6178280474869751674456220415555595484128997316722667582661087898583954994789 (-653216955018358484329418783455468282648656675565643825573089775071909138789) (5403189963619373768187638693949473943658099165115690954514197516764535669859) (-469762403299098395566347219409404008461241240581505250916074626331270392928) ;
  mkStep false 21004203646511178745576092165170797063021359534360076343809154623404432817439 5564988105374734635013368471384295367483785380725267667245240216445874756994 6045831907799805328122605723168217901519582285195122571692638506061068911800 (9021104822089822743550083208926114271571412526860372967199670079527891718630) (20155869678863870655519343205502138850836463508147465366610214021772534933437) (-974834541702138297518534183204177428229315755360901492861732042422748019411) ;
  mkStep true 7740951429953183604984624486492149443425266816410609655745493878273527248228 1295027477021691094180753217960123237694537181234153074806484814350279375216 2701303531369591672486450921906658559790545270114913222101240556248577298157 (-1968102368207737643615209431420295405247159972162163343679173450850313171682) (2737649129340958734040101995865620561763546484043435817090114064580699799931) (1510105586155522542006209097363981629626312672520733633365214069706140638469) ;
  mkStep false 11600535180143383789012928940614426362659160868081249710831714048050269516787 15027942402529782568632889353775045515315670046580484147886479901678048703371 6580070877408906270572961211924813912525200278467800419233516819331665104780 (2633461495040047012583318048071788558709417539835564768422015151739451238050) (6148159870744166850736498041577252929158078912498068297164343006223632302802) (-7278298383843087264808524181792803888719645260712799350116820067898276627734) ;
  mkStep false 9352246661063168329620957668286950588486224679397092601130521096942924086615 8837119469707728298961766874265054829349092530837316584363734517936190465468 20069943639304637962277282554429933360054041667388331115259497058323311826101 (-25330505971722854709012868687203804499682224963401697165103185691395088006181) (3995958840620152184737338282841709989301542741876480981520355319600137045705) (2645169072808865189646362491721223577901239239921609187139726018185286093608) ;
  mkStep false 17881385305537900263964090582289574926008529517238994013753427245051166146060 19343034460750076307861627580827215159559349534161662730856858391414579216395 14609722115324168502202126467665770483870049258089916682315316665196256917511 (22088239417611279858354747893601440702901800101936623925448285504212064900856) (14608022321265415183826021526857077689034522279329880765461452962662934578443) (-8582704196130341439239117912749499606329905033615290994150780057142921804304) ;
  mkStep false 21786713900692235818333169808029586207249021761822934609519733959274468765861 21475786804735049616566336254104453216805005612333877988037410913027803452688 14206021143104608142327453259129208728620398937862942876543760401041787428491 (-22197454473790754419781449538176037721727253827001322160105088531754653700851) (21685655873331891986869747836127213170256201660723721141720835247905656983221) (-2122859537492277651815331873045808944515169946136471489052752466965979000925) ;
  mkStep false 2456043121561220799696991316098027537919491284674284945321591941283678216291 2382628486486340066191841409554489281524436764062155021725876074152812978286 16117006675402933144900260999018270445893456990212432140189482809045417672050 (-60025241099234138286279784345165189739651488930426354282061967538955689420690) (275588490601452401004506020122580555823046541269457798036703560223655155693) (2142411358965045388772654166956565978790538938356835186980931863067103222927) ;
  mkStep false 19485259409285890316114871966989729407266303063049578388106002212021050862812 4093911248842716061106504638179393563018338899808805926502797126936851784193 13417968900313135361263936538778852389964832425181642138884139309806218781012 (27917149860172450258746106223068424915379932159839842895898735660828940325564) (17346085588973551891073100759990456069646320553256967079130482047722045465013) (-1523410935377260529693951525541017519730971670188780182800612700157230595862) ;
  mkStep true 1763381611937845063382076444371097525359402891417296461584006051390025542337 14256391995064382580498744972641408421124747322262086995504805599273375046292 9054914324179645825919208504222925738797890053393118130861733781011555909469 (-329817603879142247539647708386565611069317618450964166770215435913093896418) (142063240413012623030440229137036232748502785630327220601231866209216477501) (-818719519172341235267317896185192327302773820260886030729458237355961573468) ;
  mkStep false 1526344836953653725475445567294904245516712423758524997212713397297162651442 4245164106696156116028344890560413236420207408834634121226437316234190273990 467148310397989214719840457171283542527196201696573074994307613771914642209 (-26593833872529369917236267484257155800261288578637266416473614353202088841412) (106437441092744418511264225160264326162742765690882558824753912381907659130) (698118441413896818267674423113209404686315382412122154512044493021789088082) ;
  mkStep true 20711396657406579419794174382615334598226319875344972756911295933349516006269 6863425965358762294313086122824714165450312807955740770040909403985112766287 21503328827618788655565892248491580494119568366964087764154526247921019885809 (-4016918041543137246452085514761643079478924247815749589856199483133004763998) (19597824915051604466450611213308722910857384221141504500288003002346998720501) (-2477488038909130448433341591215073806787893383368092687754661311042482424017) ;
  mkStep false 2710844589255289392020877337122021869745898232272961739672798003699363453783 20376696030342732462302356012710162229333202844114732833048087763313737689005 6596802462940834959655493225165093512531955092363297514792871955364901310617 (-1130080787391623424146612363465701354223662639991030051679343814869711828611) (335736332519832238933456025770365086698207019954909127610601014628731608970) (-1673609674988453725697200723118280447058556464544420241528654018842079039140) ;
  mkStep false 10653763787783630261368386456133060901744503171389269859546247459139973333025 6919562401312476741739313102052221541015107014393702897385664195646309413552 6543667731494954938996946860145831927133466969661494870560635112889142536450 (-50486815201188180326713569646791882816508660775179549663932441222135424654575) (5185554798092942684796172720129696525563977783863682642717928172573997468561) (6550051723374380651087665544945141788190287817116819974790107774530742879726) ;
  mkStep false 5539681400146256785555868490020636282294532342454952769150627558241299230765 4141780253915895059128634975989388038379218313761174502189889095426930799579 12213552687398619224028171387181680232964219079045229151613804902314234903272 (-3250208938731231090365343006969982892122666840072522148468720886319775118164) (1402034425276260871917561615277586009006303901135920546758569994518159579874) (703027108466021471801344697912859844106508283732828904434230907846659666881) ;
  mkStep true 18303238082932506269813467148128597769771186266102746449273279169202317169331 4241613150483592559695264166824740633357798262261352395233906749172452654666 14794900129131471670891271836560501426406424131946922839013849543162876712616 (-3463411408512076206608871268344053545667606843406962534502602082173753324856) (15305409679619474474221347451621028526610061372938756078646172897714709128805) (-83481588041872690030653108690411785250864755827078073169923545608688713195) ;
  mkStep false 7975897025745361121397777096804358560439230687461623105397054083803756369019 20535350727304335372664325349686351302373511276041911773447285420709225156406 10879869873883070997512062045582703023103073639391395996778018853504298831309 (8316398652146193922751872767570167113731237042610814125155778894092088666780) (2906351767831426522053461220985735678045131881045515865311857750960450365881) (-5937304964960837542246132883275361263570974417474399782826015552056590435295) ;
  mkStep true 4100596698360487577044737566727554585099456240454057175019213410879373665705 15463337706023986323816709328777142214229221395003104918753822271436926276711 20110929424156263902114738466201982365337265460620761822379823590745040965081 (-3847142590892808420934876888589952158536121399472201456515806324548039606846) (768215766841588016198695414335437238394978881464249117457859187403671255029) (950203265327524913595686135399909665110330047829058341709278381811840805495) ;
  mkStep false 9836688768261288041546421823168944666340609819257708451132072680793747660005 19425291475635231022254292427774991360255475058853907861942984842801239074919 10159075621912628832936987077431085359349924091553402605020366211790387009688 (-14697138264749647676097521768535265356790637772603833655323528441012715032991) (4420658455326568137086686799163627206056461833934494584245578910065791045948) (-1780522373316964702926948480411331885513499818920381336036424419045768754823) ;
  mkStep true 13343237875973194818084158655090870095433300911541163977042149328004407377301 19820177663599500171850442009192266402992238668564531010972922283016785630867 21141458608584523758344317217949215591274461232187944314334659904085068743494 (-11841804135999835528613244268194012275337195902559496621338877269721016698104) (8134138407421862470940400278096055113093484093567496973416238610534594527058) (-240725597335294271106831230799039576966396412384208584304905277106516713910) ;
  mkStep false 7289029625157423319519552153138093575029440400647115511204998474556777223484 4648104983461056544931323260802247320556050879306381036551009878377369384705 7808264911108649442428029780487580150214146932069352089150676301074914396812 (-39761843685298462112132506043359138196759200470978536777463702328489447752125) (2427328369276178548655104811902878792704738951261126681550009559178389118799) (5052469852792611128949740655269847472674743185377651368916738896843104761194) ;
  mkStep true 15344843561568546651479349765198329562729287819019168239735986182047150252364 18178491387047775447722695407947375196469937951883697237495378292318179220646 14917702462971955969192158689666382483242921248635433496721333126040531420307 (-3258573301044683465234796202284356003985364884235788244888150537163669491162) (10757566302042113370357824194246341924866249439788467497639496508523049476568) (-9485533576463178191453477177693368018130249512212208712576692639821648295821) ;
  mkStep false 10599098857541962280064022913939080059290270708121693868626216191843407550182 12793534927769648419163175226692562494874391244782125477152905083544779696399 7612924054878804217340025317062877885171935555689477178911341868399634688563 (-30845063489799624694071564576686576997038412580650199960247393068690676209400) (5132476702206260414566397862721863221647003146932918838881002772592156051951) (2607595602334977222098434377698822254398609322493625104367435195165449098748) ;
  mkStep true 10962398032760124219343288961197033933409572509390222507876515132873403160767 6701842225964844393695561116602648939007771380453183314652523879508073076152 11111167377330791156814500984258499866092125673183311870375799632149494798770 (-6407450015307915288964449714011727766786810866295892291907493082187176590135) (5490352575686893045843152547337340171225402497487869519622400234422920887039) (3050932890385672350973299559266301157416216124715150942907511916552729202652) ;
  mkStep false 1511552548141218671134430330989867458220058300112364284653650817645239876665 21405290792212997430298005460624182549531014924734606649733456824741988748995 1767445624164218414518647992301216768692272353015421871681672695583341791239 (-4621377857208525997788150787382183889815624819865929649627750917487055091364) (104384400299749577263184281431320141336477874530994648011355137293083928722) (-1015386903229668340128644286046772732954014299512845982164384730755063395188) ;
  mkStep false 17484338238144003459859018383789403164619853687978314001582091265506797507136 15449110438772617306992713829125841314396774718024396846297361940616651339974 17415020080181896177295646031104718749113964326846431803787607609017950330979 (-59975311639369387650874231833953650338592922357357145677140961021296706385549) (13966497238530336296969904145763057758344789276501420205420707483330112799404) (4757799541822646123256941741631946305225431895965785049852663706680856734586) ;
  mkStep true 15774117776731913153451822411698523317406438078519057378970424537048663225699 109032770277310434369095527577783572076322424453051686374298408805925155106 5873136960285028691032000387583362458137215563197250553822343637559095841949 (-11133652392009476019023133878844814402035920075205806012935702497923205082050) (11367874209507119992134869802887675342599961285379525831703584330006844449440) (11055076154988165675477753222023342954579646093331066444403054181118228641588) ;
  mkStep false 19800478366621331506991234215866534846707062566041709275923051957660222589062 10758883875179080469277172531808454574305192502854336017729047846500037164691 8514718829498062141286675624813568981439111947873511706894141608736998760500 (10624250634428920628182430385385449239202913956001439586048405537792231442096) (17911850934889344476277788347740480875397849583550152279916156416799744500427) (-9634037215552247580976348922695206890534253186883539372351834284813348784593) ;
  mkStep false 4568409637212328309603468061675213958452276244594982537754843154430970611092 4886944094290702076128195995370121668452493791355185556878102632201039323065 17208146862601279267270325599377172374569967730093172065273242467267867490292 (-12310869409612767149238770282230125571389803313726030433177518241873713857421) (953496666478679947482559549963529902812314982368905242264077014536035184199) (1225563259746796074516781408659693156236096839464549753354483709767288205600) ;
  mkStep false 2725572197332900536624613834672568640396863108517421500574011397059252274934 14874840327612071530121265393800973962726705141162595407565968898455139011819 11520816238341126062565997519224329573024167765187888434427919686943877902541 (1012298049698342386488601906035501632628366290729853407655866733504791358907) (339394251350878594578073522362984857997573569593704018342773830248708382529) (-1243714830961174897337246047684147743507026539197760138177367074281976052043) ;
  mkStep false 2896034133492964230595973190572743763992529006991969987620870294072047437783 10495608280940898262277026952206660467285746136008063995615318374807630670151 13193574317299680522173043675638176747702266821175398169486633270317215060377 (-27277350387049173600155342521851833601127072095237856552037819680305531830019) (383174371349232979272427500395943305485969490836765282701155709023101541100) (579416335971068538184863651291983861470519335949698221313794661109289904122) ;
  mkStep false 1972755312316612690991455703793028642110234657783311805275663838924947764791 11728056056855246466998297716091205100410371274512723731732624727989653351483 21850256100410149978424974753774002668013717089539841826017641787455276372410 (-12719979102263862432036897881453820161362291857186600269420908563196690289283) (177801550588623841125425820852859229904174583294064979311004904999413488312) (-111078715241043026495731318651694055273944029486891971653537871183404996553) ;
  mkStep true 573947972573718478269751104646754101871854344150896803970207650792220088818 6342520854757945137981658014715920328421760950937750473614922275343332490805 9731540625530802787274712341376102251627969455745783143774279425622582431030 (-307530121786215146661489980003877302462389321568472388460323057905488379396) (15049918677816688353107656322704708391592731357316033044970009068737924245) (141218142934851228377553274141130442959716974862350047587336769775560945508) ;
  mkStep false 7044541831517814502535812346195961768369582086612743213995300977897875489472 3004675187084814748319000935272876997241901596213585405821104377638911411226 4991216968956488627606213595588924863693308850281272032140710231747572212554 (750438386506944475479547488579807710248623581961381724998655516297713496515) (2267224916434523910088284098856582850820775933793351671325164131179243029156) (1074256785743442478089398893894131165949320072611788356667940636533544269888) ;
  mkStep false 21808923977099088778806271303479645478334003371723911950851258757072387099402 12106950689566239596379868812476692429934161758527370799480860763376242252911 19205393995550589837805234494552331329594248132995471527847434196342930639644 (8708872842596089698377068634862013241193262318677567120915832262325701978436) (21729892519185131050417413263585922818351824294983707148360508721592724473527) (-9069290559984903955863493370175298939151400842418452847589023440962465148296) ;
  mkStep false 18865773730098361625106153252695029035904575065086507369031400643934222696911 7933775948330777530654453008003092064887026866328419247294983121991466732994 6769906829722237563436638621626221672851992636610976664517462587512542276316 (13016781278623827703910933047234277984028296556641185055726408331548102328435) (16260666537704659897440812371682454986742149479802775133375417485252711466935) (3596915972894369195562887861038003442591820593516894844045861653842023345469) ;
  mkStep true 4039410789880952711823270061480763245967773154805048142278648428811880184225 2100063285777214620204791448039825851478047297733750910712774447409178959981 5886114556721865719586736704587101052773153698265480485441546218866259883089 (-1464154996718215176117174069985582170655738278921050474640594680384831860417) (745461370515008072519684440261478847249456916696516458659478818366653379303) (1076594499255199908792315426319016361662777937352972530033186219244117848440) ;
  mkStep false 4912815383464699572894954678498510241059283420678200989415963712628752064565 15082446319251765684290358461088486466400943517266885993519013772869448168307 21325442466994631528884491454972686237900645040408270319748150647172544840578 (2037805918664000406297997809835589724217723277808112174895897659334210927289) (1102681249167776107099165532909943987076673556743190770038458793399045446132) (-2913895439406983817680695085838991297277692192311148364326067196088616008679) ;
  mkStep false 10170720269045229304638662129923180293802142956744456185557596391392639202624 16565360196142809982535769185565527777103056965825779242142840356149865699328 187207861273631406735223252499021291934754582699124432439437057542859657060 (-11359995522911467530920674357933134999904554991080358495543620410528864474541) (4725986978345104173360041301805862131619057268256073289752254844247356050198) (-689059524478714631614725592188464146711497685015434483873310585162242415274) ;
  mkStep false 6867581719812069817385454953366503177832873291966496483161072648199011462001 20642738619147762191504231116527318780100414435563706358150530576542529026194 18068664814224821973701675035183021270638222482938921090596637644987212270776 (-37493285756981432225750185724161748790973259294756670578437664118065675476104) (2154749422073354826784513424045194284456306015253349079781344533980569850297) (-1279304587697677605233142700337555535913458210414057491256155624278749755394) ;
  mkStep false 2560084277679207315617671710271545466311859623898089589092550159233158789731 3309992908739345569172821819568162124294625033687466712740429416401924734023 17447445508819069347843874317197435562359108729025187418461504750400756454101 (-54177640965503909479915294169352626329384795074967475665598788172410073435812) (299431596551428961380075949063833200172583505853072639586871165325933689650) (2027265963834748434210953729252031679128105494474614571305499540787302907628) ;
  mkStep false 16276613121737819391093958400597929337060632895613863171660899171521166648914 4549863755234397161862717727455449429860988020801961837224166864870723050635 15933648606083786139296763984641097802553241303531197887363358252639644328412 (24447027794087201872827152676774787345050527278747913876186661890498136623127) (12103673020531765340409177272728590787195394868282135305740170533964920996605) (-921997174806829425935598079841295828495462275389586362427728166315922604607) ;
  mkStep true 8532930265351821506278352187792509826509287778251267873935649306112683411250 5591987424000013667003135916019813870053293418994776286278252383218035621906 13121539462906976249487984727467040142425803549966978652165814058167667647363 (-1773722558160033596102594518673234663091173295917349371614919357809763710230) (3326484420868397766011846503268024738475047550848097410828568959274065299626) (-406262332043576120366296568044604867265865559588839920176937311741757107675) ;
  mkStep false 6690228887575348788809629234332976925181522560404759799462580293415883874002 11610907442008502568016484795017432321903673452667540378962882738956960521758 9527559969793914210219513061496606118820172521632890885615769198758455062515 (3735395077467313079816564142980992756997411901551527037122278000892128691168) (2044895190090083457123882395475532095462301892447834158399474436488196457198) (-1839706951913139274584141581437105297557971084088895984304453095810037842754) ;
  mkStep true 8031981420482374474695608915239443477055262343954602490088008124916760129078 8663849983990281072961188122557726857082858490423436962638535445749385685049 7152904842866851905062563258824873394010339604105463920126516370385015514599 (-4260670598147300237128754851090993639076010068045470250632285066197133500651) (2947368864495473295770334207450241323110315201820433593407625318640180609172) (1081434945988760122996093852044110191217309436601179694768222477417055635436) ;
  mkStep false 11094797618664938490736451942967210542513256195631893800175118835100395345737 20514355591889565761252819251037927847831457999931491915853198660562235503795 20936384085172164280751576068311812118231155983509595229552853097300039372423 (-3036645142787007348608176986589193283352433556706501583283157576961213484419) (5623774138466945906212359495470673325015931769453446249330445976667662781172) (-6006830341217255912425073078557845319540512269809896971630479926356383627528) ;
  mkStep true 3768516833601832659206032844626862561125854663115911692411621331288060376604 1914144769503543572129736174921464811766208766134214249996145895510455568473 13768116764025300995590890354026709832979152595614028226460973667548303600043 (-3531973527120929859823096247150937511075495850714133586997195585710618199285) (648828652363496386922203005533398560320700013466008322671011419231202955109) (3202413642937368965689510723586752267032439403669540682580099059347473723434) ;
  mkStep false 8456233569145636720800624351695912765645900255449367246603768697991075483363 11068819866973019952744790499269689747096222081008404771048274898830593231978 7084036087376573893691418461864374154272607331365028085046574082435771490985 (10136079585324828249204026335178853799088595550074805093312186468301534325657) (3266954163230039404757577930412416921223890984146949074114487709193072148715) (-3536787823815748064801747247373816204974173814127214787476244382681922090721) ;
  mkStep true 2208844317646380731136133714870953860962641356890234238483845561972095801 2536526707570551341216376177812685434389764692767133459893048150561128071562 21379231255317754614726479140200577479396325485433681511118898500998972589028 (-1117006057058624068051061416608042454165957940975330939525886539829625718) (222904746085208351957530414405998507010494980665035787822218444030820) (861033358044768007364880764295382583842903870293993875771883787624181141) ;
  mkStep false 914790153481450804967983827303368712028305271250783450268603640625054121078 839440150020227279120642978951186932300806004036993895669714140917640390056 17155007998460806552693275811072727069032097720359539231321565341450702904525 (905194509403491105427735114032740049759676653159900506971611284387534454492) (38232444230745888692230898614905293214810979073662141475315455406821419288) (70927487489191624310682884761608802948487416409628781395530565957975209005) ;
  mkStep false 11318470600360554533558111175073345445026896447371034270175389388928766944619 1977961040777422355620502976418038760537845756166287374324381314266812120765 18850312668577545903900588294529546141066047694607108855401296727979893630658 (17645223069027707367943897231703926999421431270476189613599936057704787797874) (5852812282892093072032672541582732269657702399862742823648720383788237148148) (-588732284513836006110559120696322547511588060712961072771325642007531833338) ;
  mkStep false 17049418921890741541395137656378587668820892048539048757129408049475453616069 11768306114815587263751531851778236500753526756946002902288023211755932376015 5100903510863745827622385352664402378024398255153037584517552105182733537853 (28829941674568024872015965908328793284262787804163083388634721547796553628863) (13280311593586585032403922007857601486693352059581571265589343890507064578352) (-7625997917443603032735798962049995943457634409673844984385217360800635007967) ;
  mkStep true 17039594570054923895593277763309043033901357701615840378943423252658804154665 250253436018895877216416495513165520362856155146309980033518720331169433449 21323274317500394595694886159256454910770799081145473484128648493344538522424 (-9161409901511453955940535573697671602533305480406574450875414781197427902373) (13265011029523871534819249734622129189016584268862719911774514742884390431720) (8966592203512891765479051560698142489917170959471364873538208326416249077911) ;
  mkStep false 20142656132834691108331235324668092087457455427540890997701997888475257811761 4190702285855151748963040728807246035560442139001683237770238528171083112540 6206087977047339537529998892278724144891670112664280519014407452520654451766 (39236903989458808259046222821535024989074392605318944676013920808894925379675) (18536279886021279014655844218957679968492468117121000208401370885933584075701) (-3626198167482508736816872296949213366494175875092560728866978816120410129927) ;
  mkStep true 8560565226576538580204790716503014087608090565910100922347456637181281209301 11833323160917654537851389409996227677457332257711979738057936162328736328756 5309155511994672755289956593736076153766889612904278503651522147067764506334 (-1638997724636077988512954240337628437185733274813741905509941739925638148325) (3348065782509905459688824749466666485555519835228947667927690303873768664088) (-2989054666747231846342788518959075193543216670265082822942508425794964189652) ;
  mkStep false 4204527503316684736573323165645149107871759238045002341236841154445234004511 19552371425399913441347315334224598928178112514797153508476176719507969311957 17453895529575611403336812941491502811203161263595766913144384748235096277691 (-17152479189456677021758057931819165448914316342337373970355924623514861783220) (807650556038486734981612656388947802581660904855132123365963836479100894044) (-1482757246320585153384028220794830721129370712435096576858336630609387082792) ;
  mkStep false 14852205476830670669721657492360075553274501090262078437773021724338109459710 8010465813696286515157347072897360691523412374075489413338342382888826001610 17796996439402024113326116836939948556847850977379207027053624080895840967203 (-28710755961416816882347375896962066397831437048450808889824049516294445150769) (10077922143755109796309475890262316533250306226616530914392230483626961228272) (7831727505169196692073909724966193370215662854479111019948304158595834055572) ;
  mkStep true 6711213702434233338311072380084977529497279419307465953336770455102821504946 21308438852277368721285575155886645610679460794801945420877662921483792354825 52359321332734979384533928642339259339662210953775130665557932311310387313 (-2456110718733177372254282441509347628048490871039566005798977471777484535511) (2057743493777134502447270454813619204906292359819075799112057470356803100560) (-4077327695680262202857497406747500552313607432362805972921015410007190768782) ;
  mkStep false 21261573302473181907141484615181607735140227058509273045398313562980418368718 19210367940637193336242834069798870657737988988520266009872431640104071322675 5365474323739128188389308078510104283636696230968834275847747582977029568316 (-62130259785092057862381904656848948350062307112252648255576466153228008644529) (20652845545589201502271036179643208037542928651931116520378379662945029446153) (2038002261890831994835789567592865243159216364209970862948875564942964793537) ;
  mkStep true 14992401141700272266335136663788299487133387901402978025974845953685915527879 120717803374555582323392277268630872880968583506578133667615386242896569880 6129475455053413430235219618232968941897809095087059520528462302841920729351 (-13158184689929376796353019161659147944411435287184446370845951452986252172604) (10269078852503063670656997838029512532049006737702159881519763682996019082995) (13075498759234376521577945463752944833099890526969022310253386609157964692086) ;
  mkStep false 3381159283607840317392552614066806096816805954867293269910048822185388221154 14200940620773578931313401295147717614113033913670987782092584757561734776950 19600758891805429023521867088817943428320330250957289817272316680756382802879 (1891688956271454719936023196195210498644281464611935379659157388215650790276) (522300404288543503385352498104432268914793609798548073012940267666881586482) (-2175025029330514696250883834147744579979834822247572363075095068777908679470) ;
  mkStep true 1903943029810352821444817363338319062062950680692241971234529415491201561215 4303947709082951354156697786520769433045986543388910658169042253463205230612 2420209727216247476975323797573745902406106255636376706557680006441413300690 (-1235265072211827483831459086246430084562948269785117814837648934549481129026) (165613981989720875157947251359446914018340730076271205737782226070641079514) (860887316566605257129229248693997477910133213993381023193551235066240903947) ;
  mkStep false 9304360875036123120310240468476010054819860272129157492297143316778598742055 16112599563338975974979587493020070008320105722357216977313134801600125757557 7063972103797499904530664673468122134036873169537842250672870222946248192166 (-481303516168929631534202492730804695111900598170367374988898440564535909804) (3955143032713816654533736680753984286756926903151231771047815917614819488268) (-5019679237981241909557202501582256654437964736794859665016007156839780573257) ;
  mkStep false 4360129710688307043310228126820762172353233745518912314975122156614990040763 4180103589007202953640796299655316036340497111723338558629089892272108188391 9220683401275746195747183477564158738088367123296175953657916603156510245357 (-32768638806445307070979847040293138516949326827827159409342529763828346319457) (868536191111325282129273168498606918738955283372199542845142027491365750008) (2376948689987773291766003929097521049166272474314863462058969542208144205345) ;
  mkStep false 17663825651421018780156909904522202248734186231820107380265195431805485191464 7026660005597468304081788333972363166936533767195960264126755656252559890304 17697919050718452242950802189796868208306637825404810564103199177646123286705 (12487310723389865546828664227499055970208120462891083823337026460341557667291) (14254718319359585407106456961916800354939756695070894387655919418498940063870) (-2297172803865141493873112358927023100308401647656586246060815684910388505418) ;
  mkStep true 8112273588454974268816613608791398002986342506931066829323116630850089691995 3696847466707670326280067021280801709494997226063563465207792184872815895357 11806891827868100878305545813461324845360325804019748357632030684442997262374 (-2604237750477378260827372419973505350562168426386515587885870861869520552154) (3006590486009816367143070754470291143292562302160234412726357687510412987661) (1234103188268947355081871204101364035713830525511647770368221320499156805942) ;
  mkStep false 5722680075328942189040862129864161513205402388644234800313192723571597746143 2964247171511534790052622364597132328437580643759129078185784086279975195495 9663145408286629150198875873294030214104662368727854044044143940668025013973 (4300668911829874911427545067080243624585207140134467685133182271234071450399) (1496194438097211870417955006015941585616112570193709773583091530958638789280) (191538312921997220231581283360062236810195039012543775855455786119562051993) ;
  mkStep false 9612160113887872156903487615631151290659903712644552432583698535942622388608 5480579204116993745225170735998109652802395368675776370532101605814118309865 6726970941731664064336372339431343021413209685103869249283174061004250296371 (7282773623647457278287481567370028552836920402845302606812027032865999140971) (4221152999626463360433565666162980281232095672638947993582971957279343811823) (-1105040113942966143772477606562496452128872253940606294369556252889938844088) ;
  mkStep true 349995948433366098647876307792557512114967453075215380392079583756721964815 19551724446896079405804909061746460736531290903379862419865283769252864111550 12947521600645944130356291925047997296233963028276308100988568798625897226841 (-87635198848098522901261752489139860505000392725017155092151527982172241377) (5596482304999112521595061629372836505101388463793463210673122992077053823) (-224999505607929027061104303384406298903654949541079142645974704007166132289) ;
  mkStep false 6290060783326880335916597652183846361056294696202616820691702896738442967754 196526119456560696575115651712628607686075727806338814543213968108037629616 11937498572805340955608637364635615448468883579482070084177407311969352810403 (-44952369935777314617559247298352802358554626635226159183453815047725088726184) (1807585236037821829767086220295063347879055506498643252823531287690542094600) (5562135556782180618044362989885477114085223089437711518594263598003868711024) ;
  mkStep true 6177906502836947254140336482632495972892878534096806738454706594185208067714 4561426780069278263184563528082069963192282618877283470312087892392542844542 12331345087662307646366417909380622969105811331960737886781897572742199818345 (-55469047857196688015813230649990489274297431428787309634602434229475148123) (1743699984565636153982730746004805042410587226763798843918543539693088494339) (-1231983231058265324795929809794847946427774450311336652792487039938290314264) ;
  mkStep false 1423627380303764332908738577618743688371088029258511849506177425127722527379 9964669762036162055981008113303985189372366177900369132289068207758744796613 19608396581587263677138267747460590585019300172975409543495036686153222512045 (-1247672641616844862204418246961358995543816696745051453181037608497627464154) (92593769624059979040290040393134884856336733280352818933334282065977254168) (-351430889021190598391581024653509073059440508151899182338491863655546267853) ;
  mkStep true 18520506994047552168891486342651199456451791129349410536275529343773120816666 6184523783531789651533732318901178582628746474772504188067248407470430531822 908653456716104556319925737585222017328647365291948025631494649146586508155 (-8431500742282153153783703819212063984868531745578684438504277639915141056603) (15670932624649789373570686874713003455587376072653576889777645392521169898640) (3198530847968792589511818371759093617083033909319949226359694084786493651682) ;
  mkStep false 1982018423324080721834382708875783462382461478872854608019977841923586909126 19062855406625955686763966384174784131485262282461841878212545730670940245032 1520919768001208009434119636220844976136739940624176729888248780846122147825 (-5077751930784147301563854579096585594903868744483603649073352127521699796024) (179475212030392211242851475791271162136282630964877669443973054518163474400) (-1166155304841282026426835409476960146957402906029690518673611086020647778680) ;
  mkStep false 11627459815313335901162862526464177140520476687467598472073110358981575978833 21798724413264925101290269419610774353508301314349313025975775274654308062880 9846500904790401845921676979415929214384284540741922615111877275528639148304 (-48190643167130115983463391818846892488462765734407716985283010065316580775634) (6176732529346505936689826778079914094567908708132279278476437538137854969415) (-1453346763416223294574306056933214612604845839206951641653745972250127435711) ;
  mkStep false 18723687133163303176801562731160797439395374020290819497904148569402469791383 2259277425669653183421377471386121937804173436176459414556544961193593748632 12250747109680885908427225297603447918030587418770217936104520743106474415612 (-48282886832395674252288865208710862100752207103190737929528659593057921280992) (16016656152496630080796159179912979410692067673885764643960492320435527359359) (16714475177057533131266991998709066401527213809333838474203295323824605463796) ;
  mkStep false 14111748767396717102608881776682097298982313286163415711454590979669358196729 20046431388013478091069850391314375635596304689082244343181043459741660090648 11513630849887357155073474571105738453630700844460869841680123386131750118280 (15096960013002054307017109422152422543571546024423110101012610170890743689928) (9098101407232276930986342862829645720767678479618528155278896752651837987663) (-11467702066050258674235059965264056653189544624330265060356206699785688250332) ;
  mkStep false 12014718429923868741030272832801279250623546922964690584435147375789920008451 7661299725506608657204670166099157014086536583648042594395481304547999444495 6712186109917463903749980520636529955457159267193027304635799104060007520913 (-42438864283763126090329097361465744992294252199336624450115270235377231874544) (6595022715874232792998095713347185236744930540011289997732461817736994621670) (6798346971652133234279006888949847583630418279870931238202654614696674553070) ;
  mkStep true 10858443066113361858133399783223779782710608122468896083533749171457957871383 19896611939148482443887842405437573079784533538130152775438213625618984545518 18311491803905568375687562739427270280911293671135944061432029260143384000709 (-3800660809958062020886244743393049709750470345682330957775085646618365549877) (5386717723774859159456739668177755447125474844696854420009937624486324640725) (-6069762741845333358988228819927498660964070919557872313348791501138991228457) ;
  mkStep false 20778647248981023894439063263822394348200976661644535965125355068534868321376 8277996901485017089939745609841775074304875587984428293512084203306296352943 14061907856935241861637443282485124173193281785210683759926051113241118779621 (-19492174172107234188767805214296609301218168316057533416080565193869796829588) (19725301113734691249062228979412280593390111075686369226165158143067955401059) (11029624662101942600909739245348030128382525453238875890923430169068435308890) ;
  mkStep false 8954155395002491876144817144063099853797749878133906012621623925839298584994 20087775164717552876037126252618580899431919315707435210256271568749436226675 248979761517119228284022104558593903907297289719007655028908231071723528671 (2112975370851971671961348209466285945060293166677564747333942796822402467847) (3663012116016188187228143049157316813005627038228832968476165851578008726325) (-4831205061487918933629687180353204653569794997941837170923428383683358617300) ;
  mkStep false 21305618487525623880347417804441075787199586337585731429884888962838918447553 12271377633771531593369713541036533804128683945460721729717814240124872656980 16855994528567774340289897425639103870643265890885870073214227314998184354641 (-54821522431503445085684545282599043629643026610076677889593767377939417879003) (20738502482536179896259034538763046761344470681289526539094525163630592877313) (7608339541746841026260760168320007479761045699435854051792166889145039166681) ;
  mkStep true 13948634338385224909610854616658275307440039006734405335451032708285299075697 11462985175087904325128213887149513237242057939934110785636862839402048285251 17744353368521140466517227416936171262688254872292200877518720044695732500789 (-7820132499623284672949080050258541073880859065349123361100984858698245666828) (8888991274685637643692521600795684741503436137080224290633258665063411233519) (515161078671756327078178251927730532559184188041276511278845906275208406701) ;
  mkStep false 1796884352800842077622046893424077754015961167448975923070185456899573252374 16018037855616601634365991648354969731617011153229924852248420667657826931067 8508401216100137781724431358082477780423153479572889534529112217835165423321 (-15096277370032668401598903203545090366182810070185885381992646805502693109257) (147512680494539152646246306821731589472747628678047502946794762958656093829) (-373940609840179895445192961281288149162001327992856607746276641778882189618) ;
  mkStep false 10718405296240463988034156103462517370914948407512112940360389679119387617462 16172936256696883437694746844828464443250414407589691532801179718789332450442 14488462860448084833329189463703741564205653988614223782966904205744190458639 (-26833566694071141579362839092056859638536240296840728633449189179760148457161) (5248672210334528138191359936367164500606219463447435592587678777205355270396) (-75851855822292401777424618848979438794271676193293271800942033155844027870) ;
  mkStep false 11790126344863174299599906703248573886447349811232353569701875727548829774912 15647173246470978628050717208779756933204465868192730192630088231809239425344 1136562602419987794964951373255419481129069806782476081424137273051919594681 (-20241459707324187186461741929708117877677949276710212681543661211286496729332) (6350764656704299003408484611687739708623053109540099549545990753950318494452) (283202829679590395463659410060393871449092868753663858900788751773533309832) ;
  mkStep false 18151831678725603103209294600847725045007518954735021994119454498014188646478 9652236257252637555301963647253278904975837845832936593843044608303245521599 3640613175120727289974835060031883366022475576190208180834494366139429318946 (-31671829930405662028706031604726962583552974252614776525193956161805594749084) (15053240921257161353515797280052470967909270202816426549312220568697456072659) (4971577106029858039456327147297931571798311955173235172889164630517588061301) ;
  mkStep true 1215085593063214964162556756635428445818214736626572141130025542752214338463 11538413422421301521629864178708410217568572401930594360875211781405104178029 9236565506430904157410859922476365000768830059843784730254448356543101364885 (-535826164105632278043070131086575508772584433884236181184062256575229117710) (67453244516457604170243541902465837101108032922830264059352617402895576780) (-104707660307895396505161931979476037138338538267929198057186378042897637487) ;
  mkStep false 10500388446529805492463596957631999106311407846289646744160015599881490733313 6177722541340385214827203310924961954806534069664983169203456368906317206366 759435055801091034912388609517175213121263825712407243068456150950529490252 (-9385399397488878867868146054038211804607242153751047914757338240150844468711) (5037323378290511347178440063570962736162645176170598239189356705785896405615) (2571669956455930362240856925156067300973031522367638169436692826916926752354) ;
  mkStep false 10847774533125885617564937259772641029914793234948154439300981552909078004851 19108146475461235522919958987597046576385491470450576984839649879234587059305 2526322960991516515258877296876685024967161986181616642749075187577502163089 (-4478039075658097987220062524975505760034355741674964298810358881236409022108) (5376137911596844796405534428958818562792045096515349603386407374699092700508) (-6408295278719692194084709239148071477651331405971890790291800171449615126210) ;
  mkStep true 10236674140017980547116970999159438804975662864756048062794065410755947707844 19515874428522983054554064741733795559279160793276866352736791063801834034632 20393045440133847668898374466996797835344641540097279880613446972689832250351 (-8936481106973074303420109494651547275378419986792465276725615113974932759783) (4787478742011389723590821917666829032066333416795085380547735217835217376306) (-190685849828517193949430281247479354178207494845072570094716542263713951716) ;
  mkStep false 4284473218592177584003184346587774929474324012572937373282739301558464677922 6875206319603867640370934454750268477471455106839796313408285506031686136464 12427656322688635358323745715912915382168314367822478233163923109410236430092 (-44218311891416278484554484951373206665265908133901150910630967232135182261916) (838656207732909441140881153490179333772797737298635625423348653596847351932) (2474323969031563219912055221992590755668419233081903616993310475704709793891) ;
  mkStep false 16727868510465629157541345354647732825110004071910087025736831704176811157971 14551668546662178275867831813931158248329097536302536352264204807422896580250 10347114620389111736923563217121227880811660653482453884291616079661267720355 (12516811765621635002015816696766495970639299278587829842981059506513862183672) (12784104532366882496985644498178482227796610047479213518572872843899423244761) (-5866658713157689347428318108170624675436860541668951180685093981700036437291) ;
  mkStep false 6214342177312975494630079234401861058444948137572057624850397877625759973062 19475565475517221912650257542263614605152407185843783058056814150990786492600 14520263811556943483663065790796891187086996296923303153823343225800983162183 (-23147228118966241298375986125647572057771921605763314240109835571148441069560) (1764328407851127221978152385069016905249071831028708851780650726424639317768) (-1397955082136499562866067991876366408210005614838352677210006997731156844786) ;
  mkStep false 11980552605834803690508444468778798189287253132565945364058355793063128392154 5731115277701274510065606406290048421820067026157926652707576159069690858169 16823105879976930579477679223880515429486834816917525224057081395790162964378 (-36091128351829132813014828706794021772101026615164720418676446063168057502092) (6557567986685718494476789545809028939695216048638783172159014601380428657709) (7523039176665239193779807657048568957250538335752678591770482608359387649811) ;
  mkStep false 11411109868213419425386190100124562616222489822599545474709888682368029762110 7623917341653142102168439566629296844054342016434662860886138978587659331661 17549219641516040410016114974863678835230064497099369878834479701981962229716 (13039126700768488607277243101637499708085430237714212461572579081402203076819) (5949012407568182805350214949929604228420544556023502745365278380214535772947) (-986784203602037076206065568679121971973292897472598349674625480115966846858) ;
  mkStep true 7594515669053930422342943460592058782393657206446035795495087690050734985473 5750155689017526411142467967720914506541615402887132454817705953559976847278 5910201084896539815035173493736119242543156356420526720411590345121527953382 (-2645253894968839277804389402341528332705307985076199001536921985587707090102) (2635052461050249746936964409452342872042015831111959585822891019534800972883) (650134974942271102446358562067180560399532530319194213799647801516427870067) ;
  mkStep false 12354232549858406286622247543165310161781599846743847316112880922124918176235 7913700949166913938485054703003437342791976050030952565245492390984135143850 13529347690500962999131422592453371891263663800302481721429470854334972186170 (2139921699923865099824141756694535443836808135743380510153481669401619124936) (6973015732219698461068856894751055552033574586837567346102950889958573034293) (-1221155185116209210397547381990605304464749167260099038959281680421373295084) ;
  mkStep true 19395186000957968062584950678336971773261470113969702418705413684523010890910 632731103176600881772755421801306010657581473207388421815087409211997455016 4279110126831426707369697811770282449127833178993595698512257667456391970401 (-7012335469948680205278812091453686574011867342634558285762630808152184946234) (17186086713964993301096958138986600244694489952531153521190406393144333700551) (6451672034945855477632061783638674885605201403623225329537228415781217405143) ;
  mkStep false 2801222403845014459389234573695627036309928267448260993384662994785929024222 4273687718653384150980181692156673617200185852731811159266113851256736641262 20774730121273106193918861267712287527374877406007354554871613924452124944078 (1040395636057091077459348851475282642684769510483828158072282868433026603172) (358495974379868917991505702900903494859065813584432470812615292865629435530) (-465963819134297055575808106565672467310963800000617554513155162653271737477) ;
  mkStep true 11886018184949449507522124904103117658494674162949618184583664791526814916755 6255596449865409604288006391748070041293781963279317321669142708439383189476 724299118957853415867504037303792001159476227061711607428113024541219051495 (-2320749556651860814941585632712752853137653237718408458498718191627594382813) (6454489248870319389488485878372224532651257785481627014150426498213635283642) (-1076240032515534836136219052868018960914662231616085524818643414312996602321) ;
  mkStep false 7764896731173111449242507029118477724783355925310395198366656836158550104350 7502914287620250209276721358999544269092186346754434078472396282775059138871 4089923174290899169423866683789912329780396611102018996222542446711060379691 (-4849601026901050468476686849994515298770694110417961478340280660499268615316) (2754612218021152714583803306951504735066478349623220703744832759354360075219) (-442488428962804961243592041349433237373014482564986457769193709600777620692) ;
  mkStep true 16892964552770649674850304355685424132175628561414389405024093708294101539108 3159362128361538183172908524923659827287453673911895825334197659978386779692 2936871902054268475008636271301983239695148151112945343257516492994068852124 (-5790618545553208971065750378058968333705168822817294229034143533421616182937) (13037695764437840651956796543155071095894263155033073420808443760622432723700) (3352277891336376433845575587249811636270124650417146601667288601174393527699) ;
  mkStep false 9113347362418912339788044567772344915668192514163063033065868789834408666931 3008312630338617909396021614619884139179539094399309537077584141629600874906 6745838558345389977403498846718514690096625133982759172600450497992336089522 (1077508165841166228313494196821054554783226986881344887634340050665975399112) (3794416054061664884408290383363370339066357597575537577262715285168819304337) (62890683023849685390738807050592211561852665241164396491762565352596059640) ;
  mkStep true 6755491263236886556296946193347524985261063399224036500342326041526084080320 7194812453334569842898751744919226700846404999265562855354898555353005246653 19755958622144491718822723315561367479601278449528774509143680327045923258865 (-928472413721439784654057750581135615052724399554872931027148548333245979760) (2084985189303824811515864443209374637004478106102296747377371083383350067480) (-1292102940532448156905885212029092435670122102276479850341532419573917774469) ;
  mkStep false 10373387113391688382945266926634916866065688072641192326318578201590756767266 15571761666568256780009330553565426605147299384872165546298626118720855889205 14783221683533124189877217304327915142905992641677589948518281182868636514003 (11630738745998728392245531301078657408678596339502371137350443719585964861391) (4916208250901890928889291538420220436897442301304114508103775264216472064515) (-3970046272188177848130667378849426265836077197476462077714436024750470697900) ;
  mkStep false 583303555940623215682254596770013468937258574669531860216092004167225550748 4722521580591604522357971790911864915080097296290196746239994329352373253834 5144093439100305570292996700789674585306917386111789689578169604002524015899 (-32446326404866382117373735433777013147880801380253009456178981963327030573989) (15544556973585200292893173281575069048249129405051868380869617459732433220) (289123268526303442935603194272630591371425845753215497879790028456304428682) ;
  mkStep false 18451962608758171550353396820950633314314878241905838042450276123413411287111 18590362853863354638657533661086484725200766124977981381908486736356073556692 16454280839482774070781960247587467522494826542408885997844761810356344288092 (5616284964983302196172420712734621544602407892987963320581688512084438456770) (15555151051117675393058834622098983732976632694157517993177318196667239664367) (-11690700351640480047332860967819852908126047647914058672507424473784369545563) ;
  mkStep false 14995193497521359543385107546307144836045859208966986442664730383216787534127 10852891476732728603444166733989296414184749056291579858495776792596455580421 16454345064542202029421276528923034246461919434106711843841632576115944584043 (-24823121992708682867434158993233552312319329225147843415219441384006611194328) (10272904469522279420280831271089020511968353012468706655375950694558600146028) (5300785502105368367307464837953320237212519810107310398725030661691675505654) ;
  mkStep false 17494012038003845408155241258106401186818603375235078973885244826132260236352 5954187566875500075791925471328971257229733588520890325198580657568426299866 1925629681424888591084515463508744591164678904201512610607300191901798047505 (10158387877813377667915278209092351554547652378608094902005125033719170525603) (13981956385341716136532831965748922026312516429549237541766332294502377137412) (3915251930976843842674900748880330168599976310088473171727635308566165361564) ;
  mkStep true 9421562451120437098300904009095635141558921589799170408466410226516820370437 9210869585003424511880895630335351450201344436959365961215556805660767389067 20740314372547182012850420797630093623167686782355467292513916167159441085168 (-2562917011450744114636530564781627367287294709120499764638401275114466864994) (4055411827258453670349437077404801106855713053906059136240089112571680462645) (-1401804301829499737965025104932623313159807233925214794526132495076678026970) ;
  mkStep false 5456203010956907811025511076572064379692328404156768464937207400828581355173 2599931381562156437737382873990662493564770710581497473043368397320963927897 7333809220575678172889397488480328928627617153647792316169793253137193550602 (-1288071602893577793245088950742253471582050748773819795104749560898532744733) (1360097814661795757394963373874400961677295686167138552589308830716865892806) (1647945024279387173058049943373752457492519444006163517343959981512544070080) ;
  mkStep true 19704893930744848698493671444479672735444958366780311293737853963518416240812 2475893410650538522537708861163488225288118917797025451224190289843808505014 8426363612711572560341485709398463165792579910519241839647668477190563425203 (-2340588616494651457859147769627924555474599128872451957369223133974907535144) (17739333718809273114019563491591214913810404191103205376369525890063772568704) (111665201930979072044435623813240139018214684679632822837380781047529282177) ;
  mkStep false 529869724351780271917418021242106877271212457238254479778408788660634685822 1397581114573446548282340829119450869632861208100369595879658639968200624792 977927326357411133286343108991998216035665462424932489884302176617305611575 (-432213525251449490369743755448845226925227067644505699518937365907489743432) (12827065490298038874619208215948242595235637289574436185043652384898513408) (26103741740850485841458327780727900804078633431096385100822283834253559382) ;
  mkStep true 8935647259566588436688364238438034861154486719550492226664399307766961333399 17382090655586962718788394527624871069929460307897254332106892623482732442519 6551500417450721333242355837508688859246594567627721557575515653343851312702 (-570547938890393042092949160888243335100361181339378880438571325334610669892) (3647884958829973796132802852956657373341234213986764694022853246096714834583) (-6525509594899300567409055888239470054686188849634623128117210512724141222450) ;
  mkStep false 11021256231535464720970406164768925827544895826038566152086732407805451288229 18123977279569875218509460687164031023637034331601203198938490100312161557650 5928670335185694788793038688303065538863792914254589582983511433274299285170 (-34813196360043306244321595893527207867540955131689956539221284132993377282049) (5549467338807553873478370243714584480381583293417067282090026363344677576991) (-373557741731024891571713303418015527986238256566479177796372839663930405137) ;
  mkStep true 6980046402211682399707556727635493137207137491457491894140930298712378458040 15551570599302836397066457672277565761647239958078728346210266538146809632054 14207650363736148172429100084638052467710802817832077907430229189184792760295 (-5779641753097818708523719664671699274249059865525789890743856759922244429624) (2225900364058515591669037528927061684654590967735292830523285117854015818065) (820327063198126634384871220890087237695414091620848233354870853566368754625) ;
  mkStep false 5916818956913483618983563712426053733388761113512075199009815377608514638395 20021534265047989830284924951489082594496439618344953928635875801135440611972 11340144136901284450463652692844357910049838204645036474403956581580905053435 (-25466907397201907490199949469978480888556312895830042060003201341313374633406) (1599431565789683211505482461474345247272201581059794402080306362212199286415) (-1208318361097067827937263955874741638223404767919485009814387109697908038980) ;
  mkStep true 637774820488903238340582748765350935407198030577736381964323295808823185360 6879587272717695902844134047773277732743197473963223751050700670973168006338 18013630555963130621600522214999364069144138940350295282749902924606490847392 (-583383074492100832126295295948548213202183885905122291699533483617645228369) (18583342849003797985110180914936803987412531895602305615669063849380528383) (382927169302001928049196538400831433641118181709020510878355901366176381011) ;
  mkStep false 1857590891884809336964815126356495488375533969848970479725488628507971583442 10603465884445780282610090626095539145683626363563397080097963045240105686301 4494369676015499930125803874832226025012053361170262712010482854625828649208 (-3429341106422052509505624221988374864835034181643047019657691752540223258388) (157648283684429111463328034629854613967336104939691539422040656905513211589) (-316034641617144263367508586691328245975210645496796139814540898193188663762) ;
  mkStep false 3778558007763755474767795138725430785192118962725591967358532807627882083617 4400263822691323105548773124088699645994124908943564298160848299241367004978 9162071736587670750320182106693062653601505626507205529776354745998091257404 (-13858398547823188800559999062767208238607203127460993335110804382856647031357) (652290853205242160890406393719217774536957367863616446559754647348373041923) (1070856119491209896416339443154976615833256497303110016656619020441943073713) ;
  mkStep true 19628396071802674413802438934140954758888177322975048577261736788452342230345 19926456253954450105636659647574293731627912303108006357667575328406826238619 19469336403296562341577641564214833581116687857009247811915398612552133452550 (-3945959556366713534880846189092572637038036508818411465064100175299161186761) (17601866655419836469376192051008116419692372788795266501174056797849176250469) (-13923194123542224338361844391885679161550956663900101292176533507749852726453) ;
  mkStep false 6313265227912177739970086741486464270556948622438978796402013012894379498775 12664098077352909444224873621382327709962227508015599540409072533639128792722 21745389531216344603606825228513085293070810077166928094225633082321221373649 (-43190347119532325137655237830801951703236874889105740317113061468818738238801) (1820946435551671118819103329267595919468719211519052549684711411009744374255) (2094695020401583862337494262072358809203999491544628936715643324995832704072) ;
  mkStep false 2002859869781554852185716056275226467156868940337923421018498795118440382427 11550201721647795047212350194882673768684193188732201206123807349383051955558 1764606251949638193185878907553304483561199147664550132453428131992533086808 (-18002002561645005507938470527832988992056530607612859829084616718696234534682) (183269515121398311731403149267212081366818675796556315457665935378017843769) (101925875137652115645469838532211807803554692759969438338823098815398933037) ;
  mkStep true 3673219643079237855357292371778334225513045551200898405423425824263437862479 17809808800828189204989857441359747966279069689211279437142936385072784326384 14524232380367492138104003696311069334886097443657852808007676911502653777059 (-1938320407622524137768365898090133111347118402860369435853949206715749792259) (616428766132810248130871303887827080714516187148881379610998579074175524006) (-1050468592469121170131088207695750741755895796375086954870296573077497635687) ;
  mkStep false 19814231200513975096713037013434396989089742258516301359151242198271996399647 14838018378682843985652221421006540015435510973724319010397359700359180951615 15313375057795556758962669954278971171331388523357700709254330787896335017611 (-17177937670854748943098121387516135479671561374426402761778791803304708975434) (17936741672970612385568971465929992451608279382316859999352919877165020255822) (2690199613036040793814967533086495491004078079722139462582620164909892312631) ;
  mkStep true 16794319792507188496107278293686557490199463907819579712720949496365135858649 21512579976108710984982107260636479836137672567777949177240998156780044576016 12756524534595617123575072751134844195958554515382766727870578531285843323239 (-11384852918427016338383725276181986434213481486092310866560177819465446913619) (12885875716221803003932136935666322860266387323025867012080201768243995299543) (-5121229812657788923580611633020128138655480265511385654208521432567399309453) ;
  mkStep false 17069108896127325063911370445079279000730810348400628776197035527245271853743 5277856786320568033665207450676637488928824947555173716681605369390322061101 7860410807915211956910366159843320678242469024337069592617487914728857684348 (-43534251900919439442571647110072327923693409297953075614376862978100115554658) (13311003547146331101117877533837759503778220735110695202667361933168371498252) (12660324524336363651202294351260362618630291569319386577429851684457926586726) ;
  mkStep false 3965652736526848738014656001897872597566037478948551458230621055232299754622 3387023448792248663169312803022067432712357765215396408176983842546812430512 4813183790220863957527933855185345053211250838659802484139916065046414964571 (-969652869521472345925594650358977495637858685120720009289211454915662231677) (718486253958556793489147404128276159226713199166718479160831018597086311990) (342576078088596366831111112882528687826421213019041229394337809730578649433) ;
  mkStep false 20790388765554243568773617953578619210375264074262722736114053411385962211876 21554799075947683185039801857708376533407963442710688690806931662179514733006 11669322461528929388784680867034087026696779138902703320663593973389826607622 (7571194354879714518538841277242324018768244770610252945876535326716748158120) (19747600003972490294730388466753103890200209107075713082081622400115667560462) (-17256529932783180949103787389247026091848591437483342367178805484604064081439) ;
  mkStep true 8951626617643233932681255874758285517064044303154535911719402725504194953101 5398750939419111040155066173148532627328762214990448310302079762857893508677 1115312267434942596622949857158846812505500741396416953150882638693942315112 (-8815258231369916146850548663330856405975408515484567348540367685854537748595) (3660943437574592396695726784716000624200441820523652049329649974284184325699) (6607333050061401790745673621595504862069605481059278638505298550915646259265) ;
  mkStep false 2276262003799362408520170926056217419926875779475573249256575587620971373477 10945505906220687596492648420406886385174344348804236339649183285290851008238 1687748508546546691216549040932832375110266983915207458452092482942899936864 (-3762844268789326991290357001590986412227320820711202276892470073596703268333) (236719262495340572296240906288959543028441157527631032211238423072802572439) (-576833309518868078598586494590812845503429597164462850017078465870729386531) ;
  mkStep false 21723673372140896414664996029141454112378788651899332989922658157188016611073 21857172676405067121758283918588870320483563074777308944961883188012727934153 3245667496210653934821060542171832681939271931418672532074650179666032695416 (-13070217908146314438285771915154614480872913609397630219290205725203257215636) (21560341208869637528757204346518667590262269420803803692281604850619108392900) (-10829626034810641742357066530179855955140952556167977154542258123523487401525) ;
  mkStep false 15585914160597036860616137855912061853209786695634669491339736766937797889170 5347234361025335044169415399187001726236885410426914643064137402413890318023 12049830686041387067081974055557521383799458218831754496215632367027237167947 (-60856168767789041371809375177214216271603748055858813854133196713706864738389) (11098228471049788725346091871584276729854037250353718455755757861872784095037) (11756196369299408866435125082381630846114527714091161368530634589413961558039) ;
  mkStep true 5798942213543827159318485690592400858858421011258903320223218565185824914917 1946808861045025617503469028974348077792325321964753948740588070083151705413 6461727574722275847703776236012258002284914284176519966705978982506069147224 (-1416664793214451031467409907058474282881067939368155488782206629976436098563) (1536337612521878701498287199017282472534760454795369995905746509378445202644) (900888714151484945272958138625736084975088558622524788268822210400397525153) ;
  mkStep false 6972524813289558982546625112351626312618313866578910444308024442460582393119 13418001134195887248061559000159853970268387030664272778784650915559930722961 6510117568776965977689596825902857194973594736959937464858954551799318282358 (3597315597219984582234793753384443774710568138615335854998313539978017396435) (2221105757853525433032705790743617257985759189310761856661680124658639790378) (-3654161424965896981916017988254853037290313040185508302312894449711516443118) ;
  mkStep true 3929736552915671388797100870290219873090568822514703514011963926324555777690 16088861184824031822088878591119798562267037605748281920564904995331226313904 11660877068632102265673926725541233197023496957959784122414301245095522474304 (-2409019756992611651849322435542915997112638504580180653504308238115443210868) (705530794122802880294871924154513499574591906430467569968329139160471750798) (-479516625895044145024741403914128740395627344835093196036203784128121848004) ;
  mkStep false 20534740359860395112591989489185022908479312051091544707584308334866321319932 19630135958874598599156324907434086589874837966713466718638897254585457690933 1215083759637841539876930297015452182659789754863026424656238157440263596944 (-13598542307447458221360883816936296911453111469300777096246773049268697441024) (19264934335564868162785967167464956460363747759008144531302252544910385453101) (-3322293089209543463540080598257095934854326604356622187813578444244120739172) ;
  mkStep true 12652003488479403531481868662381487325061332892933943632001835144203135691179 5316175863453146906996089071930315056832299144633832196659022682337144380775 3054922473209376917532143532481901500354037593489308950960551737288680593825 (-11346755885578155391696682279228497263993295240778214467368142061975417855842) (7313204317484987818612892291275964704424558003160039103082799135840461488004) (8273860726126403568757022238864774407596207271677152927519009311184121141711) ;
  mkStep false 6500037698608367375073008206686678273352076291702514720595284998120741114945 463840483850370034700430519912912276230269652022667056483292128180140501094 10923491354143366310576428197915872894832981068401813917925881631685150543249 (-2059139932474825960875105519945037251615979400202207559050005000847150038375) (1930282404609467875026800770824058521748608353828096846023536477605306684107) (1440972812591002051647912792423087049713643732093183307553520772320033241337) ;
  mkStep true 8902276865494783876885458421856357283966352300922792744675393534399242005158 7496237058229201417747565556403782279983689975103914195952243531786907822738 5322023083872232148723196039146632746093883042086547558259042902113077159381 (-188650885904304440604015551692614249824309035434704829571436351723613648409) (3620689602813429933039195061154294607526819636857250532880615684337892799357) (-2860181226041776753535751154169646662685088165161463886745558851483437288354) ;
  mkStep false 10968034077402539118700522192342612242531727478574467924165749986393148742539 7733639504359773843249643184603165392222102958348192323152617282227904299020 15513199716968808781839773180057275273192009371449636445621195975879618454250 (-2368232539896125340440733294574602081201768394427106135166494717221475443858) (5495999483715282431885370940252368616060803311622362113833198308071824840175) (-118960582375886149616637099347863255516812483659046728160976996373984926363) ;
  mkStep true 6196967888528560714789203349022035244641672264203906038180134256776738641255 20005353362510544789447017663183550895256750763454211535051487172391857870955 16809366114809725670250412214230350563761866122127480158151841799052037166032 (-2189536910321494963499485810500868020443350724132628510664705547243385045459) (1754476649236264741252080963705651188080303351400149882570290300204761287103) (-3474350004312656577729086896468128352924901661353378323145020114798385200629) ;
  mkStep false 6894026740341079370836654878962324724757211965738593351679259280906245891171 13778417441527115048594690117047949441133928288552043071224120727920925593177 17760661420648105182837058074020642912537073911139853538184037289600989435605 (-44264587896906781229826510274008806411801475624047923077659063349013946555357) (2171375974527647873180193726090870666748017391341512632494961892048807030038) (1961265826636127026734968223241625585172563666112626446144037392710289371047) ;
  mkStep true 10573474174538209867837657002905095720491508546090656938524098342153636710441 8059491878023404902058315989993562523808148645928349852381795954778728127542 12836540159297566699190255773857783536567274802078949190530614215182933410705 (-6655890188948354464724259133057740496563542753948308711382930337357091688211) (5107689857711818744709857607312810424541486890137399875257858460192045518967) (2762620650084720055425981936047859754159526977009887350536800008900512135075) ;
  mkStep false 17725241883359348225267599744833901475948393849069244130789923886014795045582 10944451880040176897265006620724579187411706564980841755901149805617821574865 4826891080119456979144307001646250993176502956511547635100536556281454324166 (11887447158994861824969116464863711234114462064116707301897221286921520136016) (14354016522167522311779832569413289193053392007321958232064642114864146527425) (-2336259432014751424792996753977865007826849800802837835711838479533007048679) ;
  mkStep false 16302252907954017885134467323663762735990432175521812984945739559576907499031 18547988277170396031024173795111487653533598236823338634926315499848716264632 9170266845543497579463599697790440187891471876258537554445554197233404922158 (-9227085232541751440277630801987201418778112032783057976848258480968430460601) (12141835753148468910381994893758947740712848646389409280150164479384647015953) (-5663075563745989103139846063385959763620475180952650525973159381093784998947) ;
  mkStep false 981314919707882554877520727634943500175960878977544296182102900282709327630 21514077069704124560307509007962696153046213362991534780509138008300036107536 14031951318209649202636650052406311322658442650709504326870095797710814859937 (-46330158797185744360327645746441669531308752230180063016530515229468171212424) (43995261624231447085624158481097722655378641260106045869843041936412684700) (-132978567641738797298933373651099051572707175327054163944008856912330044905) ;
  mkStep false 10913132966385725363662179965764405672848493369228243839565659662340050317836 8375445861957106014727599871455565032530829964871288835416607778173138608030 18688606973224452984196087228523865031769713604355177322819360559204009340685 (-49446702587945727644289811741886548668061270988274034437228717466042804442328) (5441116120620201774019090584563782477821713291869872817742267572915642889118) (6550714472879006352173014078937318633930712839554195459573638829769071373318) ;
  mkStep false 5620980724419344380020325148575602864616915578790016056162303530283611029853 11070764736042928947241622973607091607029363451541845198814287139512404523300 1806325991056295949777226636950423049472245802346272598989246073588797121679 (-15884373920364059786439516543839938079776835273915439899673006102486910230) (1443488382749238249557516742926157625422720061468669845965460212957958615503) (-692167732517807798223256616070214934212424879203669743078482479940676805478) ;
  mkStep false 6076023810445839559338895370828214108515509945792708817946701126468883813241 9505235282324437317279146314673675042869741295389300413888657067410794167518 15038946189653084154991148895498847832108045961359226259705163148809266115690 (-15795463257814825082640558405728006781849802912658441721132935913409580100334) (1686661901609397858998979326928207107590951885777080835127990834809935640861) (434580075360270834660357073820864719274372408358534493547089539090042286971) ;
  mkStep false 17330261070660041151585782411634050440423986730640936013629572096342879834421 21253958592813165596446974180996401479102511261944137899667225206581636672002 7848905193814911667082086241639955221633002568848044822832486665562120426940 (11431216088773729862315238077728632835524909436420415666263368123930732511976) (13721428007528200151965934166806632934086895627041152421747178780360509036141) (-9302183067407169007034411265991794043728088465218385984770868285627517479318) ;
  mkStep false 13358372179488865794602636107490898480858812350251292006832534867571079453348 12489019718118963383648936313982162182753616369170651624702991752110316820732 5091927323547464877111379297039580257510033945875796405646456730973778519765 (-52333806817714096407676424633796110865802875158965583235504201656570268941684) (8152600842862779956619947740699891696524404041615582176929426638954372438896) (5349233207260951992695506938288211991899715554209678311975494412956200297985) ;
  mkStep false 21608259785471648998645399488913386065227961880652669246338992194059331531260 1673681362873432666819839789066825316021365691897986544978227774694072251351 1709169751945494500247815938208007664826421477772626121201557891846453899375 (-11324411245714314540302647905463624427363440283098301409829243210604908218984) (21331858097990673308041637125990139742904416552150232198324530362759349411895) (10676994138647510261632008960645789252787821226274173728257695738648674137240) ;
  mkStep false 20394761579181747960775825179593230340886230813576243972237755651437780971542 10744714802106827425888394862888810182779572104286404090525452745988254279537 18703216195880807354136587774542183424409325491173937221916420714312269392675 (2801165521794733831059916234771245473781201745372557989998738542070093953559) (19003183686654510380867182075186008801686334085673918819852248315149017654675) (-8452097564577342377102608525599418551230916277374063100235131231670702910914) ;
  mkStep false 8523277203789611610892327225706742635281567968680378651545723884713129590642 5942070469394237232698861489109794959468855373384094309241387005948179847646 20303608384887861411903279435825060279881384748308292392678814336615222519590 (-1257355202844976824537874046834229310917349142811752832099028440986802696529) (3318962363402137051293369674771614847400672198657087311630064976092383304668) (1870148700313597749584304142518431625362066171339487187960699835066132703979) ;
  mkStep false 20352336987221118056639950346750161753360157049058940126090915771890199159730 18819830460927528009327382683593189868620495855914431189999358994593911501872 11648760058870234429798339537299700022849544508377709038024695150145511893411 (32918455795685569514471623633750670101377133887484414544345135297253063490644) (18924206171630530389038030212362459864283455915896094219755426621966123666792) (-11974122935443086042242608089213639947718351072469852722849746738267118559307) ;
  mkStep false 15561054039565013178542587073265300105973750894080366598496478098112451785949 4724979338438337620187508035341199112686187003435685508000933272962314051517 9630802697663988217610330104726922477585063056700314970774027875130740836618 (-31981739708068729424354515150207539934901936906569703980033598775582246061278) (11062852520418647209630661778764198024479406514001302269668324190313253908980) (10020481830401375317293326280289708064114679675827506024674107732593733930902) ;
  mkStep false 3996289070530324056945544668345890499415064250187872544142402822962711216814 7429060867049855643771493596675526036604618967602466575106453903252939225548 13954310940594949201507824515773766930662963361798323733095061125381951185822 (456804775730695845532633838746255677339059860277890609571236025488598320539) (729630351268947261021158571706873605766787846886324910805980048424886397458) (-493703013160374600735010288665989331469728504213741254837530761173776219478) ;
  mkStep false 3884883153165327708976449178133560393515777228931751201776096747435090066775 6599266017836942868473941844122039045588194660968998128822552050186689694185 11684484235257161703169884468796605764447347748278158343270256378189557886368 (-2611041071653476365895910006744297645975804377692514949350215191658884404564) (689517070973526136121642861470138143895306991941166737320936672152269209968) (147277972433230932377425301085157108939579279128842891844500742946565557345) ;
  mkStep false 15940113946096855789942496427625547151152296630089915898192105407430246281692 19160344921963847848039335847568873411425807361016539117861686925774747194844 9924990947567700331970623917891703578794469542655157609938756118838211800672 (11049451786345593883837742036080823404886547593376777028167925163085950059339) (11608388763880727797700393656400731490385847313812330873500832975094690513550) (-9147606328660557418933950555229126194181604661581005995521313965246830630796) ;
  mkStep false 11254809601719929707880270170181337720556982686433066853115048567715886129434 887359345784696120696147942004148861637654273598610085077096998247507568245 4982961135386181672778433609998961958343386637718100620802177802072094231981 (-40110514621896941793860047856740593352235730591775319552804307452475506566864) (5787158883088679143354282752864975615222295203413495629648115060188679878481) (9395864927077598594507418922892427247805909594589725101142691693497199311311) ;
  mkStep false 4606409982790194464864240363924231916969783534015496103007638857983815388887 3368943841223469567718804779241171469732547828349094858259714784477259929501 21148621142677723484773977960259048170115158869354706281870950609974870205393 (1989419811590546177235192299369313577382074328970697815370537168681642244093) (969425140875463980290392549712589122615195719659049779042587731475179776166) (-522252775604639808104949358128882919518077090799231414320452470511231023162) ;
  mkStep false 2020272267866559898472577282933538940467424543681619482755164220804209117171 14179199379082904039500857934295295760084700649804250484721226212057251512731 17322329406925871301969897033226294889134111374776494386129672075096367915287 (2348411340341838529428210718456697363784126824833481393501857970706127892541) (186469972039730183770673655179842499218849629159183240698062717736975342476) (-997780388291768127825361482628735544123536995152372343548765139324056063470) ;
  mkStep false 6571984605764315754166425197611563173355055623722026263871979752659656532544 12284995474042360818259355402795767071442747720923270694651131246987175329999 18388369154461897617730482395166516653103623418875430492702004462723800999873 (-17153725993319715914321996277941666008468066139781057987357980821196999722269) (1973250292921927834676106941856274428058785904407114033848125669025856849325) (568738156689643668848643334819289744290649467252947248381033464056285896856) ;
  mkStep false 4133771739581960490669528321872499921305431613573401261229831922395935943863 124104263348746699820243296627512547767824486891358560730287200164125242831 4126565122625087160006228206494775150683807037206487578293049918084695563309 (-13739645601393239390440168753614494181176523551713345934698628692847859817635) (780696234733005433788013154755213142595003991284781129275998126349397005180) (2296682685277225420796706907504880502945330157298091847648040600014686560094) ;
  mkStep false 11576619356540770659179971850431669379226032998167705496484193843759505569315 19054000724474322872219795259051237826917566290891001221834571941264729081810 1393798562231072562770201785890748341953124988996803679336852367787415408679 (4362942347808779992842983176490138156015363633435172063941795304102443937789) (6122835739302670979159678847921021512210676253907294537301048311584732112991) (-10011959711536416711369684158430495170886862210775818180897571684989981319131) ;
  mkStep false 4104727559343531650602020496750632281476078204256814640249658100550596865476 7230769019813642385348760909487096733126150733251427069126437937972133349264 5303808279579493414713699325408078127648368198856753885812875846249318486861 (-49237506655696030690348970974894905154842049242657347652155266778679602805324) (769764317541972601116491286565429533396350917873133508680794242239898361924) (2217224347462972592493679488568691582381947170064962146984425786661661689932) ;
  mkStep false 3212169546685765749182576075447510291661810526437114026876403999543282253282 8072560362566127411344462881012674831531540353122947732798740100247880349164 12595255086231605782521638172011139154504632033114198409595701681607482396644 (-5609340123752152185203327441162538918091560477955397259652874045440576102548) (471396139793856855496099553753133370848981152478544297682961658252648706504) (-123535568007247535527762105500518082953705801941141241305226759994870960335) ;
  mkStep false 10720847305267594485724224903334108279996569505664076666247480783958075286871 10969632791947051655379456753656371937227631669341412855378493071200512999424 11581733400981890303337425887520133291189252189216568941146463853861557535927 (3406619760002742416589183578902129452416930410789803174121922714867249414520) (5251064126793714169366387550432661901955418408919566710858720621285182243583) (-1418984215843709824385627557205866584645516052925474848207705327258406610657) ;
  mkStep false 11676767837869964381554866368315133149683184251892420840244323470952845600171 573011686476384881690454609118746307550318485872372750831234481186080953516 1188230788905976769201396878518386897403528116966001667479997099236322495383 (-4135741143488788568005885864784738659313034784490266065839076291389771788618) (6229230365263081244539134828730944881470105885153204883743056349064935508619) (5546307744193939043741435297408378303315415739520388311818875322612677362626) ;
  mkStep false 17381427849457921094646721282424828868510585226114176345885756947158452846588 10296210423881459776936787717049993391325552021605413991699412493845789633013 5355709597874802838595238292502764122767652289540488992110592095073644011920 (1842142766293403324456398050707556174951630305176069096563248359267429351080) (13802571355538174555989587945458121582598536990673871531494616565008901759653) (-7721180649799016431134921370561300593184081605667144505426751044687764684133) ;
  mkStep false 13556994854815954402070700753698301437864739697689573116891020797492099846075 1 21888242871839275222246405745257275088696311157297823662689037894645226208581 (-7895617449326083013422034619527251406684219423115668719709519499831126707229) (8396841654656866377144286979716462397267557622656278829928697009913163860706) (6377198597346061143852301755709739326930598825014986990245695505697000067553)
].
Lemma bn_steps_ok : check_chain bn_q 1 2 1 2 bn_steps = true. Proof. vm_compute. reflexivity. Qed.
Lemma bn_steps_mul : Pos.succ (chain_mul 1 bn_steps) = bn_r. Proof. vm_compute. reflexivity. Qed.
Lemma bn_steps_end : chain_end 1 2 bn_steps = (1, Z.pos bn_q - 2). Proof. vm_compute. reflexivity. Qed.
Theorem bn_gen_order : emul bn_q (Pos.to_nat bn_r) (Some (of_Z bn_q 1, of_Z bn_q 2)) = None.
Proof. exact (chain_order bn_q bn254_q_prime bn_lt3 bn_b bn_b_nz 1 2 bn_steps bn_r bn_gen_on_curve (conj eq_refl eq_refl) (conj eq_refl eq_refl) bn_steps_ok bn_steps_mul bn_steps_end). Qed.
