(** Certificates that the moduli of the zero-knowledge proofs are irreducible (generated by Gaussian elimination;
    the kernel evaluates [certified] on each). *)
From Verif Require Import Base Gf2 Gf2Proofs Gf2Field.
Local Open Scope N_scope.

Definition cert40 : list N :=
  [494760532060; 156292968440; 156292968442; 666669149558; 156292968446; 341818654774; 666669149566; 309559269158; 
   156292968430; 413604476628; 341818654742; 652990849950; 666669149502; 646938249252; 309559269286; 111286832020; 
   156292968174; 0; 413604476116; 1030601168836; 341818655766; 589203531136; 652990851998; 212526751784; 
   666669153598; 211524648146; 646938257444; 471037321962; 309559285670; 249322957382; 111286864788; 229932982194; 
   156292902638; 527540567914; 131072; 145002676962; 413604213972; 648198899090; 1030600644548; 432134930204].
Lemma cert40_ok : certified 1099522486571 40%nat cert40 = true. Proof. vm_compute. reflexivity. Qed.
Definition cert41 : list N :=
  [0; 92772098224; 92772098226; 4391508448; 92772098230; 1795346944678; 4391508456; 1799721671470; 92772098214; 
   2122775510158; 1795346944646; 4196360; 4391508392; 1799650374566; 1799721671598; 331392132384; 92772098470; 
   2197859383072; 2122775510670; 332470035752; 1795346945670; 2097158; 4194312; 1888076542464; 4391504296; 
   2126957159718; 1799650366374; 1883647283712; 1799721655214; 402009678246; 331392099616; 6541085102; 92772032934; 
   336068853384; 2197859514144; 274877906944; 2122775248526; 1649267441670; 332470560040; 695836366464; 1795347994246].
Lemma cert41_ok : certified 2199023255561 41%nat cert41 = true. Proof. vm_compute. reflexivity. Qed.
Definition cert42 : list N :=
  [947163715504; 467678772192; 467678772194; 3551619154962; 467678772198; 477350984440; 3551619154970; 4139371695638; 
   467678772214; 441205021680; 477350984408; 1577954410504; 3551619155034; 2315238153192; 4139371695766; 
   2274529594976; 467678771958; 0; 441205021168; 3552741845896; 477350985432; 309474025102; 1577954412552; 
   4070583076178; 3551619159130; 3073494675078; 2315238161384; 2170707842512; 4139371712150; 3723043050148; 
   2274529627744; 788920874166; 467678706422; 2942612263030; 131072; 1766710913828; 441204759024; 3110400133858; 
   3552741321608; 127580329556; 477349936856; 1428652682768].
Lemma cert42_ok : certified 4399239010919 42%nat cert42 = true. Proof. vm_compute. reflexivity. Qed.
Definition cert43 : list N :=
  [0; 5208925892436; 5208925892438; 8574831304176; 5208925892434; 8595223628560; 8574831304184; 3798209244250; 
   5208925892418; 20942341798; 8595223628592; 5108560162636; 8574831304120; 5565943182; 3798209244378; 8558251146014; 
   5208925892162; 8794721538576; 20942341286; 233795083526; 8595223629616; 5046530968778; 5108560160588; 
   3782627519220; 8574831300024; 5528192424; 5565951374; 8684470299288; 3798209260762; 3765816815220; 8558251113246; 
   8669341603094; 5208925826626; 8766884070294; 8794721669648; 265537455878; 20942603430; 5735662794074; 
   233795607814; 3009902636908; 8595224678192; 600155216384; 5046528871626].
Lemma cert43_ok : certified 8796093022297 43%nat cert43 = true. Proof. vm_compute. reflexivity. Qed.
Definition cert44 : list N :=
  [1993428138104; 7166623673318; 7166623673316; 14269053676102; 7166623673312; 9072107452430; 14269053676110; 
   898193594630; 7166623673328; 13211403553842; 9072107452462; 17086439985868; 14269053676046; 11683808017158; 
   898193594758; 10303408042058; 7166623673072; 13487356813410; 13211403554354; 5062825785448; 9072107453486; 
   2481030288236; 17086439987916; 16200281992658; 14269053680142; 0; 11683808008966; 10094902465784; 898193611142; 
   12502935958278; 10303408009290; 16335742482054; 7166623738608; 1717455473214; 13487356944482; 67918930558; 
   13211403292210; 6067154294796; 5062825261160; 9687203208860; 9072106404910; 9836472069376; 2481028191084; 
   5555461471282].
Lemma cert44_ok : certified 17592203542555 44%nat cert44 = true. Proof. vm_compute. reflexivity. Qed.
Definition cert45 : list N :=
  [0; 4768352412290; 4768352412288; 13485820270844; 4768352412292; 27206966573076; 13485820270836; 27352439749856; 
   4768352412308; 18914388804088; 27206966573108; 15821281095978; 13485820270772; 18784394491390; 27352439749728; 
   24022763748916; 4768352412564; 28413025475776; 18914388804600; 32441393345396; 27206966574132; 14346627014040; 
   15821281098026; 13540704481512; 13485820266676; 10923696440682; 18784394483198; 30231895982186; 27352439733344; 
   29824253719464; 24022763716148; 14830631777468; 4768352347028; 4810149624514; 28413025344704; 15154295858692; 
   18914388542456; 12947101949108; 32441392821108; 4562562218744; 27206965525556; 21287631137006; 14346629111192; 
   22288428529328; 15821276903722].
Lemma cert45_ok : certified 35184373323841 45%nat cert45 = true. Proof. vm_compute. reflexivity. Qed.
Definition cert46 : list N :=
  [5497569930356; 55784327925614; 55784327925612; 36547803536984; 55784327925608; 43300472915018; 36547803536976; 
   5173056532858; 55784327925624; 678075629760; 43300472915050; 16927765332330; 36547803536912; 30673273896354; 
   5173056532986; 61116836967286; 55784327925368; 8144550936956; 678075630272; 337997025440; 43300472914026; 
   37098088291480; 16927765334378; 0; 36547803532816; 50674383001294; 30673273888162; 55668413226784; 5173056516602; 
   58263721247002; 61116837000054; 18859960647452; 55784327990904; 25267296823498; 8144551068028; 33671235855616; 
   678075368128; 69566877476886; 337997549728; 67265934540814; 43300473962602; 38897142953838; 37098090388632; 
   15068660299470; 16927761140074; 28246161367182].
Lemma cert46_ok : certified 70368755859457 46%nat cert46 = true. Proof. vm_compute. reflexivity. Qed.
Definition cert47 : list N :=
  [0; 16781376; 16781378; 69910933622; 16781382; 1178014065694; 69910933630; 4605513900392; 16781398; 268451840; 
   1178014065726; 25469320251862; 69910933566; 67117088; 4605513900520; 1409344032; 16781654; 25473598378112; 
   268452352; 279710468096; 1178014064702; 25490845487264; 25469320249814; 139331055501782; 69910929470; 69860597792; 
   67108896; 4535502311766; 4605513916904; 25469840349312; 1409311264; 1179289174558; 16847190; 358211332158; 
   25473598509184; 134693464088638; 268714496; 4398046511104; 279709943808; 1728776273950; 1178013016126; 
   133670171607040; 25490847584416; 33777947623880; 25469316055510; 68894707802614; 139331063890390].
Lemma cert47_ok : certified 140737488355361 47%nat cert47 = true. Proof. vm_compute. reflexivity. Qed.
Definition cert48 : list N :=
  [53844497894786; 32926851512622; 32926851512620; 187124523979114; 32926851512616; 223966078526206; 187124523979106; 
   35955088395742; 32926851512632; 226814926676520; 223966078526174; 77379497352790; 187124523979042; 
   204053846848586; 35955088395614; 159737329768064; 32926851512376; 5869468725548; 226814926676008; 209473581154006; 
   223966078527198; 177867514009770; 77379497350742; 0; 187124523974946; 51733057762730; 204053846840394; 
   103552055971268; 35955088411998; 65323533883712; 159737329800832; 86815899383782; 32926851446840; 49565573168868; 
   5869468856620; 243525900912082; 226814926938152; 234492283568844; 209473581678294; 48019569348736; 
   223966079575774; 234205025174848; 177867511912618; 95525109212554; 77379493156438; 265638106065264; 8388608; 
   265754138060782].
Lemma cert48_ok : certified 281475018792329 48%nat cert48 = true. Proof. vm_compute. reflexivity. Qed.
Definition cert49 : list N :=
  [0; 97878718732; 97878718734; 320790545149856; 97878718730; 490776881486926; 320790545149864; 784905754752; 
   97878718746; 61094268556046; 490776881486958; 432569602690754; 320790545149928; 519580374778044; 784905754624; 
   320035737385418; 97878718490; 276161294614862; 61094268555534; 519234764396252; 490776881485934; 89632144485892; 
   432569602688706; 358236619448056; 320790545154024; 320790444478378; 519580374786236; 519372303464134; 
   784905738240; 276986330382510; 320035737418186; 224845698334210; 97878784026; 357440272471906; 276161294745934; 
   407917745966614; 61094268293390; 321023949432328; 519234763871964; 386868409314138; 490776882534510; 
   496787053415198; 89632142388740; 146718124622950; 432569606883010; 547926759237098; 358236627836664; 
   39315568438548; 320790561931240].
Lemma cert49_ok : certified 562949953422687 49%nat cert49 = true. Proof. vm_compute. reflexivity. Qed.
Definition cert50 : list N :=
  [38452415517206; 132234639666106; 132234639666104; 706269878273260; 132234639666108; 864732778163088; 
   706269878273252; 666225895624292; 132234639666092; 22696357569982; 864732778163120; 1113228582720342; 
   706269878273188; 1125288238305840; 666225895624420; 947850086095338; 132234639665836; 623986615823994; 
   22696357570494; 440740558053764; 864732778164144; 0; 1113228582722390; 563586111341898; 706269878277284; 
   964411784421066; 1125288238314032; 82696051025088; 666225895608036; 99064477465240; 947850086062570; 
   170394548664788; 132234639600300; 370398775249182; 623986615955066; 884845848345890; 22696357308350; 
   1063072430773112; 440740558578052; 197318820327184; 864732777115568; 1094722679406390; 2097152; 760326042927696; 
   1113228586916694; 519459619300020; 563586102953290; 878516661329118; 706269861500068; 568943619136674].
Lemma cert50_ok : certified 1125900847118165 50%nat cert50 = true. Proof. vm_compute. reflexivity. Qed.
Definition cert51 : list N :=
  [0; 776333962547942; 776333962547940; 1018360671822288; 776333962547936; 1311065095897966; 1018360671822296; 
   46348063444134; 776333962547952; 318211782920806; 1311065095897934; 161483194306554; 1018360671822232; 
   546631394214376; 46348063444006; 1655520930129842; 776333962548208; 1269176166133502; 318211782920294; 
   546660452216446; 1311065095898958; 1144115784148260; 161483194304506; 2127150282724924; 1018360671826328; 
   2127146524677820; 546631394222568; 1144176182053764; 46348063460390; 1675988402053382; 1655520930162610; 
   800373862291994; 776333962613744; 362643108300066; 1269176166002430; 1211591210002554; 318211783182438; 
   1311150928186416; 546660452740734; 471012878839550; 1311065094850382; 46707832260440; 1144115782051108; 
   114578617492452; 161483190110202; 1224034176131310; 2127150274336316; 1434949074494436; 1018360688603544; 
   2012937081289386; 2127146558232252].
Lemma cert51_ok : certified 2251799813788225 51%nat cert51 = true. Proof. vm_compute. reflexivity. Qed.
Definition cert52 : list N :=
  [4496869283669056; 282175837675688; 282175837675690; 2104644836833612; 282175837675694; 531551842285778; 
   2104644836833604; 2794384015550570; 282175837675710; 1883513123711108; 531551842285810; 1194463850875700; 
   2104644836833540; 485863518527032; 2794384015550698; 4179528772497694; 282175837675966; 4173376624046510; 
   1883513123711620; 1774529409097364; 531551842286834; 3873395336118724; 1194463850873652; 3576755050464448; 
   2104644836829444; 0; 485863518535224; 1841544263823722; 2794384015534314; 796412465832594; 4179528772530462; 
   954872487085434; 282175837610430; 1517784463281068; 4173376624177582; 641243750034208; 1883513123973764; 
   1459904212114050; 1774529409621652; 1395356367785780; 531551841238258; 2736398693948606; 3873395338215876; 
   1311169037898628; 1194463855067956; 2293007148200486; 3576755058853056; 835858413202966; 2104644820052228; 
   472345677019616; 33554432; 1306568091385176].
Lemma cert52_ok : certified 4503600141354131 52%nat cert52 = true. Proof. vm_compute. reflexivity. Qed.
Definition cert53 : list N :=
  [0; 8888501668167762; 8888501668167760; 2764861099753060; 8888501668167764; 2593707448855572; 2764861099753068; 
   247538035230872; 8888501668167748; 8885698937182780; 2593707448855604; 8833673857812206; 2764861099753004; 
   2740419637283686; 247538035230744; 2630251051161990; 8888501668168004; 168099121607392; 8885698937182268; 
   8874679932293156; 2593707448854580; 6417010159605954; 8833673857814254; 6436662189087464; 2764861099748908; 
   8986155933890798; 2740419637291878; 2589908684027646; 247538035247128; 8839357710736398; 2630251051194758; 
   173275629021536; 8888501668233540; 8868727913417436; 168099121476320; 6281445024243728; 8885698937444412; 
   6266869644491322; 8874679931768868; 9005189883071510; 2593707449903156; 263939984182520; 6417010161703106; 
   6399371546104890; 8833673853619950; 183394432479794; 6436662197476072; 7396053711089254; 2764861082971692; 
   468905359673034; 8986155967445230; 4384902040797302; 2740419704400742].
Lemma cert53_ok : certified 9007199254741063 53%nat cert53 = true. Proof. vm_compute. reflexivity. Qed.
Definition cert54 : list N :=
  [14324817302496688; 15333431261277090; 15333431261277088; 8782637972218516; 15333431261277092; 11032813623527562; 
   8782637972218524; 11908136135158924; 15333431261277108; 17292146044479204; 11032813623527594; 4848440319290340; 
   8782637972218588; 10925109711187190; 11908136135158796; 13533771659644662; 15333431261276852; 4870213627985720; 
   17292146044478692; 2290562841043570; 11032813623528618; 17447834734740938; 4848440319288292; 0; 8782637972222684; 
   7397199760657780; 10925109711178998; 12258921990722490; 11908136135142412; 12243633553285512; 13533771659611894; 
   16229185350337470; 15333431261342388; 1978623467401714; 4870213627854648; 16686230450942138; 17292146044740836; 
   14975104033825534; 2290562840519282; 5661842713048534; 11032813624577194; 13844808390117518; 17447834732643786; 
   5027783318195924; 4848440315093988; 957022797844888; 8388608; 11003518299799972; 8782637988999900; 
   4431701628092674; 7397199794212212; 16800635918665652; 10925109778287862; 7643608041025016].
Lemma cert54_ok : certified 18014423912784023 54%nat cert54 = true. Proof. vm_compute. reflexivity. Qed.
Definition cert55 : list N :=
  [0; 7370553429075980; 7370553429075982; 28655601744352348; 7370553429075978; 18718713109269204; 28655601744352340; 
   13275277618895324; 7370553429075994; 5145979288268422; 18718713109269236; 21084051566267774; 28655601744352276; 
   7329602782409132; 13275277618895196; 36000148245222384; 7370553429076250; 36124180270742; 5145979288267910; 
   24922282840718680; 18718713109270260; 17275405990236946; 21084051566265726; 33675160736366130; 28655601744348180; 
   30845719262792456; 7329602782400940; 35988105975266790; 13275277618878812; 24922278008945552; 36000148245189616; 
   18753579651811060; 7370553429141786; 5192718466345616; 36124180139670; 35987725870364006; 5145979288005766; 
   17281327141282810; 24922282841242968; 35995753960283448; 18718713110318836; 21110327907927968; 17275405988139794; 
   22756079428162700; 21084051570460030; 1398519403117422; 33675160744754738; 25037214527202608; 28655601761125396; 
   2446649783786922; 30845719229238024; 15925814423987818; 7329602849509804; 3056969631894356; 35988106109484518].
Lemma cert55_ok : certified 36028797018967697 55%nat cert55 = true. Proof. vm_compute. reflexivity. Qed.
Definition cert56 : list N :=
  [12402903132740668; 34030959200445836; 34030959200445838; 39864930636087368; 34030959200445834; 49451785475774252; 
   39864930636087360; 7849366654922622; 34030959200445850; 37364749438901528; 49451785475774220; 6144179801025162; 
   39864930636087296; 20956952453223734; 7849366654922750; 45918115555725334; 34030959200445594; 15878416375413334; 
   37364749438902040; 42361380763777540; 49451785475773196; 52316905458659578; 6144179801023114; 0; 
   39864930636091392; 49142763032699986; 20956952453231926; 29246078687923414; 7849366654939134; 27830703529120640; 
   45918115555758102; 43866167769826396; 34030959200511130; 29471747487246048; 15878416375282262; 16996847298179914; 
   37364749438639896; 17028925112090656; 42361380763253252; 51188342821910282; 49451785476821772; 11239983862011564; 
   52316905460756730; 3581340031399372; 6144179796828810; 3222424521287490; 8388608; 32256757883941102; 
   39864930619314176; 60733564604288820; 49142763066254418; 8074969577846084; 20956952520340790; 49841618412985524; 
   29246078822141142; 59726599412161292].
Lemma cert56_ok : certified 72057603773459229 56%nat cert56 = true. Proof. vm_compute. reflexivity. Qed.
Definition cert57 : list N :=
  [0; 20879232517626754; 20879232517626752; 84755676754652286; 20879232517626756; 77698956188641490; 
   84755676754652278; 75135811520976142; 20879232517626772; 76834814233779934; 77698956188641522; 86685949406630602; 
   84755676754652214; 7341431015552848; 75135811520976270; 35542045244613996; 20879232517626516; 118863735233861178; 
   76834814233779422; 74189522484087306; 77698956188642546; 59358824858461496; 86685949406632650; 128044846901406250; 
   84755676754656310; 118863796437122274; 7341431015544656; 55603498629174764; 75135811520959886; 131027080468902908; 
   35542045244646764; 42133502982124784; 20879232517560980; 81172657554925930; 118863735233730106; 39220506913064686; 
   76834814234041566; 117863086324965270; 74189522483563018; 53831099272415822; 77698956189691122; 99519740694926316; 
   59358824856364344; 43973263440338264; 86685949402438346; 121928589015810260; 128044846893017642; 
   58726711075587002; 84755676737879094; 99563958984001166; 118863796403567842; 16622529923029796; 7341431082653520; 
   126312001667251934; 55603498763392492; 38338015190782734; 75135811252524430].
Lemma cert57_ok : certified 144115188078554495 57%nat cert57 = true. Proof. vm_compute. reflexivity. Qed.
Definition cert58 : list N :=
  [106605458624731338; 195333295767253412; 195333295767253414; 130874254613963376; 195333295767253410; 
   21260626617264926; 130874254613963384; 105088009242136518; 195333295767253426; 135509490198655046; 
   21260626617264958; 95160614347914776; 130874254613963320; 93523769838531676; 105088009242136390; 8315321667151258; 
   195333295767253170; 281101575673188762; 135509490198655558; 8865237696524030; 21260626617265982; 
   282624275186093138; 95160614347912728; 47789936226954440; 130874254613967416; 206638782701484168; 
   93523769838523484; 0; 105088009242120006; 252708001051326538; 8315321667118490; 56609365749342482; 
   195333295767187634; 16522050498130996; 281101575673319834; 230079807516443270; 135509490198393414; 
   242995529826739396; 8865237697048318; 265535129013036106; 21260626616217406; 143092577410743768; 
   282624275188190290; 7654715929855342; 95160614343718424; 247410649612168172; 47789936218565832; 
   113810749132303932; 130874254630744632; 248286608720397148; 206638782667929736; 275395251695623884; 
   93523769771414620; 204751257139761972; 134217728; 252612073021083454; 105088008973684550; 184567911506237794].
Lemma cert58_ok : certified 288230378958036459 58%nat cert58 = true. Proof. vm_compute. reflexivity. Qed.
Definition cert59 : list N :=
  [0; 562233776230397758; 562233776230397756; 93155708400048; 562233776230397752; 327327455344066246; 93155708400056; 
   340358525693106430; 562233776230397736; 562985604964268866; 327327455344066278; 563078408467434458; 
   93155708400120; 341590733599870740; 340358525693106302; 576166964749000890; 562233776230397480; 
   333484328521974668; 562985604964268354; 245747712597533390; 327327455344065254; 576383842335733064; 
   563078408467432410; 341390008312878196; 93155708396024; 236047830733964476; 341590733599878932; 
   242758152297252388; 340358525693122686; 11932011956389248; 576166964748968122; 245747629919249316; 
   562233776230463016; 329628007289365510; 333484328521843596; 574864745741547330; 562985604964006210; 
   576441513003467440; 245747712597009102; 561142780476254914; 327327455345113830; 561891350305505602; 
   576383842333635912; 13169575622561642; 563078408463238106; 563260189730020016; 341390008321266804; 
   562010841661242792; 93155725173240; 329167040252457836; 236047830767518908; 6742125926807544; 341590733532770068; 
   374873891342138330; 242758152163034660; 439576823348126494; 340358525424687230; 273910463414666934; 
   11932012493260160].
Lemma cert59_ok : certified 576460752303423611 59%nat cert59 = true. Proof. vm_compute. reflexivity. Qed.
Definition cert60 : list N :=
  [787015958982707894; 821818050254370252; 821818050254370254; 438228012565387584; 821818050254370250; 
   964889721971732538; 438228012565387592; 1121793510071907538; 821818050254370266; 350809921339965748; 
   964889721971732506; 956251790132403144; 438228012565387528; 476757239317152680; 1121793510071907410; 0; 
   821818050254370010; 299264089286969982; 350809921339966260; 643512850364196724; 964889721971733530; 
   1040370386833110250; 956251790132401096; 233892390130639168; 438228012565383432; 514124425935731072; 
   476757239317160872; 49961830663347468; 1121793510071923794; 1083633475889891254; 32768; 1003813537863666724; 
   821818050254435546; 101439897240064316; 299264089286838910; 703954388679794234; 350809921339704116; 
   550839394461855354; 643512850363672436; 956642461213549804; 964889721972782106; 963923745307222924; 
   1040370386835207402; 623044471173440490; 956251790136595400; 377936470399510302; 233892390139027776; 
   385895722078621744; 438228012548606216; 429101209061121248; 514124425902176640; 981565992912499640; 
   476757239250052008; 143801932853080288; 49961830797565196; 30146151761519406; 1121793509803488338; 
   37941347086411592; 1083633475353020342; 286725941088898156].
Lemma cert60_ok : certified 1152981527954067773 60%nat cert60 = true. Proof. vm_compute. reflexivity. Qed.
Definition cert61 : list N :=
  [0; 84720171316288662; 84720171316288660; 512624193197135298; 84720171316288656; 446358229473445970; 
   512624193197135306; 83873375620068096; 84720171316288640; 507023774924290834; 446358229473446002; 
   987006223683954026; 512624193197135242; 903547737756226674; 83873375620068224; 85001818107415424; 
   84720171316288896; 4923059096846616; 507023774924290322; 441833760558898026; 446358229473447026; 
   89087422854995680; 987006223683956074; 4852666721763954; 512624193197131146; 511571335605611160; 
   903547737756234866; 460269417966302730; 83873375620051840; 852498225460835680; 85001818107448192; 2147483658; 
   84720171316354432; 447209427548448490; 4923059096977688; 982894797581067658; 507023774924552466; 
   830705767452972384; 441833760559422314; 903828280741481994; 446358229472398450; 5973631746786698; 
   89087422852898528; 927104522978845536; 987006223679761770; 785894992942989298; 4852666730152562; 
   983885951507454226; 512624193213908362; 5484956782042848; 511571335639165592; 1003521693512546936; 
   903547737823343730; 29047209780039178; 460269418100520458; 865824520168847370; 83873375888487296; 
   276037473694283114; 852498225997706592; 1665545697803982288; 85001819181190016].
Lemma cert61_ok : certified 2305843009213693991 61%nat cert61 = true. Proof. vm_compute. reflexivity. Qed.
Definition cert62 : list N :=
  [771539865866069686; 3027976050619555702; 3027976050619555700; 3371699806021989600; 3027976050619555696; 
   442636726719280148; 3371699806021989608; 547002094046287870; 3027976050619555680; 3702954289636022514; 
   442636726719280180; 1003806639025651506; 3371699806021989544; 302487520832310062; 547002094046287742; 
   1981980891131314348; 3027976050619555424; 2225324594360149202; 3702954289636023026; 4303074980348822168; 
   442636726719279156; 2151577630707745794; 1003806639025649458; 2428522409045267222; 3371699806021985448; 
   4132936849469855770; 302487520832318254; 3984087240625080626; 547002094046304126; 4198522385635386628; 
   1981980891131281580; 3198826210106442022; 3027976050619489888; 0; 2225324594360018130; 1506209294028554986; 
   3702954289636285170; 3156726189797420496; 4303074980349346456; 1988009593523960128; 442636726720327732; 
   3411534621256711510; 2151577630709842946; 4204068667873312594; 1003806639021455154; 3460858202832863186; 
   2428522409053655830; 2528633068237383114; 3371699806005208232; 4138575405542322372; 4132936849436301338; 
   4505786540626304718; 302487520765209390; 203438367842906110; 3984087240490862898; 2446022931359562882; 
   547002094314739582; 4138849209434016252; 4198522385098515716; 4067946609615564756; 1981980892205023404; 
   1824385464635178772].
Lemma cert62_ok : certified 4611686024857219139 62%nat cert62 = true. Proof. vm_compute. reflexivity. Qed.
Definition cert63 : list N :=
  [0; 6534005072897542168; 6534005072897542170; 1470174148906054568; 6534005072897542174; 3413299862163137578; 
   1470174148906054560; 25150256608314718; 6534005072897542158; 1667433119479272148; 3413299862163137546; 
   3904743347050888476; 1470174148906054624; 9213367491732848338; 25150256608314846; 6519933266337930450; 
   6534005072897542414; 4125630524092530592; 1667433119479271636; 2192106002307033778; 3413299862163136522; 
   5302647865693159188; 3904743347050886428; 4298881673965754364; 1470174148906050528; 5486497498011337160; 
   9213367491732840146; 4664199966564574366; 25150256608331230; 8835156012913020654; 6519933266337963218; 
   876862281012129542; 6534005072897607950; 213660391774094248; 4125630524092399520; 8538670566678101920; 
   1667433119479533780; 8239941333890181820; 2192106002307558066; 3280194229843564828; 3413299862162087946; 
   3024617478094973958; 5302647865695256340; 9090589868777080094; 3904743347055080732; 2061796232736897826; 
   4298881673974142972; 8566365462970035284; 1470174148889273312; 4508891766064125400; 5486497497977782728; 
   8987835726103345560; 9213367491799949010; 2176022662293618412; 4664199966430356638; 2397418971523108300; 
   25150256876766686; 3261601642741433292; 8835156013449891566; 8454222739351220192; 6519933265264221394; 
   3898759672687766650; 876862283159613190].
Lemma cert63_ok : certified 9223372036884368159 63%nat cert63 = true. Proof. vm_compute. reflexivity. Qed.
Definition cert64 : list N :=
  [1858076378458151938; 9561900855309385444; 9561900855309385446; 11347809597230670838; 9561900855309385442; 
   4018460688368531344; 11347809597230670846; 281517943493500; 9561900855309385458; 3931244771709608444; 
   4018460688368531376; 1858076305444036428; 11347809597230670782; 3336501280695469424; 281517943493628; 
   9580096982618358322; 9561900855309385714; 4018742189131883772; 3931244771709608956; 12932019878818011918; 
   4018460688368530352; 9650468784525026546; 1858076305444034380; 12303816589915979790; 11347809597230674878; 
   9563028610608019698; 3336501280695477616; 1427071658708988; 281517943510012; 12541401399658572814; 
   9580096982618391090; 9223372039002259470; 9561900855309451250; 12931737355851385214; 4018742189132014844; 
   11254603532465727182; 3931244771709346812; 18546751265078896; 12932019878817487630; 9635927528439764686; 
   4018460688367481776; 1863711165003320140; 9650468784527123698; 1841373461176552128; 1858076305448228684; 
   339958567963100336; 12303816589907591182; 9241497849131167678; 11347809597213897662; 1783765537390569292; 
   9563028610641574130; 12319055597872112254; 3336501280628368752; 3623343634930477708; 1427071792926716; 
   13116755630313467918; 281518211945468; 2165389375334596604; 12541401399121701902; 1012186353053232128; 
   9580096983692132914; 0; 9223372036854775822; 13853606100407680462].
Lemma cert64_ok : certified 18446744073709551643 64%nat cert64 = true. Proof. vm_compute. reflexivity. Qed.
