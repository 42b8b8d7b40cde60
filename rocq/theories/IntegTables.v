(** Tables of nodes and weights of univariate rules.  /repo/pyblp/configurations/integration.py 354-778, digit by digit:
    nodes are multiples of 10^-17 and weights are multiples of 10^-40.  Definitions only. *)
From Coq Require Import Reals ZArith List.
From Verif Require Import Base IntegModel.
Import ListNotations.
Local Open Scope Z_scope.

Definition nested_nodes : list (list Z) :=
  [[0];
   [0; 173205080756887720];
   [0; 173205080756887720];
   [0; 74109534999454085; 173205080756887720; 418495601767273230];
   [0; 74109534999454085; 173205080756887720; 286127957605705820; 418495601767273230];
   [0; 74109534999454085; 173205080756887720; 286127957605705820; 418495601767273230];
   [0; 74109534999454085; 173205080756887720; 286127957605705820; 418495601767273230];
   [0; 74109534999454085; 173205080756887720; 286127957605705820; 418495601767273230];
   [0; 74109534999454085; 123042363402730600; 173205080756887720; 259608311504920230; 286127957605705820;
    418495601767273230; 518701603991365620; 636339449433636960];
   [0; 74109534999454085; 123042363402730600; 173205080756887720; 259608311504920230; 286127957605705820;
    320533379449919440; 418495601767273230; 518701603991365620; 636339449433636960];
   [0; 74109534999454085; 123042363402730600; 173205080756887720; 259608311504920230; 286127957605705820;
    320533379449919440; 418495601767273230; 518701603991365620; 636339449433636960];
   [0; 74109534999454085; 123042363402730600; 173205080756887720; 259608311504920230; 286127957605705820;
    320533379449919440; 418495601767273230; 518701603991365620; 636339449433636960];
   [0; 74109534999454085; 123042363402730600; 173205080756887720; 259608311504920230; 286127957605705820;
    320533379449919440; 418495601767273230; 518701603991365620; 636339449433636960];
   [0; 74109534999454085; 123042363402730600; 173205080756887720; 259608311504920230; 286127957605705820;
    320533379449919440; 418495601767273230; 518701603991365620; 636339449433636960];
   [0; 74109534999454085; 123042363402730600; 173205080756887720; 259608311504920230; 286127957605705820;
    320533379449919440; 418495601767273230; 518701603991365620; 636339449433636960];
   [0; 24899229757996061; 74109534999454085; 123042363402730600; 173205080756887720; 223362606167694190;
    259608311504920230; 286127957605705820; 320533379449919440; 363531851903727830; 418495601767273230;
    518701603991365620; 636339449433636960; 712210670080461660; 798077179859056060; 901693978989030320];
   [0; 24899229757996061; 74109534999454085; 123042363402730600; 173205080756887720; 223362606167694190;
    259608311504920230; 286127957605705820; 320533379449919440; 363531851903727830; 418495601767273230;
    518701603991365620; 569817776848810990; 636339449433636960; 712210670080461660; 798077179859056060;
    901693978989030320];
   [0; 24899229757996061; 74109534999454085; 123042363402730600; 173205080756887720; 223362606167694190;
    259608311504920230; 286127957605705820; 320533379449919440; 363531851903727830; 418495601767273230;
    473643308595229670; 518701603991365620; 569817776848810990; 636339449433636960; 712210670080461660;
    798077179859056060; 901693978989030320];
   [0; 24899229757996061; 74109534999454085; 123042363402730600; 173205080756887720; 223362606167694190;
    259608311504920230; 286127957605705820; 320533379449919440; 363531851903727830; 418495601767273230;
    473643308595229670; 518701603991365620; 569817776848810990; 636339449433636960; 712210670080461660;
    798077179859056060; 901693978989030320];
   [0; 24899229757996061; 74109534999454085; 123042363402730600; 173205080756887720; 223362606167694190;
    259608311504920230; 286127957605705820; 320533379449919440; 363531851903727830; 418495601767273230;
    473643308595229670; 518701603991365620; 569817776848810990; 636339449433636960; 712210670080461660;
    798077179859056060; 901693978989030320];
   [0; 24899229757996061; 74109534999454085; 123042363402730600; 173205080756887720; 223362606167694190;
    259608311504920230; 286127957605705820; 320533379449919440; 363531851903727830; 418495601767273230;
    473643308595229670; 518701603991365620; 569817776848810990; 636339449433636960; 712210670080461660;
    798077179859056060; 901693978989030320];
   [0; 24899229757996061; 74109534999454085; 123042363402730600; 173205080756887720; 223362606167694190;
    259608311504920230; 286127957605705820; 320533379449919440; 363531851903727830; 418495601767273230;
    473643308595229670; 518701603991365620; 569817776848810990; 636339449433636960; 712210670080461660;
    798077179859056060; 901693978989030320];
   [0; 24899229757996061; 74109534999454085; 123042363402730600; 173205080756887720; 223362606167694190;
    259608311504920230; 286127957605705820; 320533379449919440; 363531851903727830; 418495601767273230;
    473643308595229670; 518701603991365620; 569817776848810990; 636339449433636960; 712210670080461660;
    798077179859056060; 901693978989030320];
   [0; 24899229757996061; 74109534999454085; 123042363402730600; 173205080756887720; 223362606167694190;
    259608311504920230; 286127957605705820; 320533379449919440; 363531851903727830; 418495601767273230;
    473643308595229670; 518701603991365620; 569817776848810990; 636339449433636960; 712210670080461660;
    798077179859056060; 901693978989030320];
   [0; 24899229757996061; 74109534999454085; 123042363402730600; 173205080756887720; 223362606167694190;
    259608311504920230; 286127957605705820; 320533379449919440; 363531851903727830; 418495601767273230;
    473643308595229670; 518701603991365620; 569817776848810990; 636339449433636960; 712210670080461660;
    798077179859056060; 901693978989030320]].
Definition nested_weights : list (list Z) :=
  [[10000000000000000000000000000000000000000];
   [6666666666666666300000000000000000000000; 1666666666666666600000000000000000000000];
   [6666666666666667400000000000000000000000; 1666666666666666600000000000000000000000];
   [4587448682574918900000000000000000000000; 1313786069831356100000000000000000000000;
    1385532747297492400000000000000000000000; 6956841583691398700000000000000000000];
   [2539682539682540700000000000000000000000; 2700743295779377600000000000000000000000;
    948509485094851250000000000000000000000; 79963254708935293000000000000000000000;
    942694575565174700000000000000000000];
   [2539682539682542900000000000000000000000; 2700743295779377600000000000000000000000;
    948509485094850700000000000000000000000; 79963254708935293000000000000000000000;
    942694575565175510000000000000000000];
   [2539682539682541800000000000000000000000; 2700743295779378100000000000000000000000;
    948509485094850140000000000000000000000; 79963254708935311000000000000000000000;
    942694575565175920000000000000000000];
   [2539682539682541800000000000000000000000; 2700743295779378100000000000000000000000;
    948509485094850420000000000000000000000; 79963254708935276000000000000000000000;
    942694575565173750000000000000000000];
   [2669222303350530200000000000000000000000; 2545612320417122200000000000000000000000;
    141926548264493650000000000000000000000; 886810021520280100000000000000000000000;
    19656770938777492000000000000000000000; 70334802378279075000000000000000000000;
    1056378361541694100000000000000000000; (-8204920754150921700000000000000000); 211364995054242570000000000000000];
   [3034671998542062300000000000000000000000; 2083249916496087700000000000000000000000;
    611517301252477160000000000000000000000; 640960546868076100000000000000000000000;
    180852342547984620000000000000000000000; (-63372247933737571000000000000000000000);
    28848804365067559000000000000000000000; 601233694598479970000000000000000000; 6094808731468984000000000000000000;
    8629684602229863200000000000000];
   [3034671998542062300000000000000000000000; 2083249916496087200000000000000000000000;
    611517301252477090000000000000000000000; 640960546868075410000000000000000000000;
    180852342547984590000000000000000000000; (-63372247933737545000000000000000000000);
    28848804365067555000000000000000000000; 601233694598479220000000000000000000; 6094808731468983000000000000000000;
    8629684602229883900000000000000];
   [3034671998542062300000000000000000000000; 2083249916496087200000000000000000000000;
    611517301252477160000000000000000000000; 640960546868076240000000000000000000000;
    180852342547984660000000000000000000000; (-63372247933737545000000000000000000000);
    28848804365067559000000000000000000000; 601233694598478410000000000000000000; 6094808731468983000000000000000000;
    8629684602229896300000000000000];
   [3034671998542060000000000000000000000000; 2083249916496088300000000000000000000000;
    611517301252477300000000000000000000000; 640960546868076380000000000000000000000;
    180852342547984590000000000000000000000; (-63372247933737580000000000000000000000);
    28848804365067555000000000000000000000; 601233694598478680000000000000000000; 6094808731468983000000000000000000;
    8629684602229875600000000000000];
   [3034671998542061700000000000000000000000; 2083249916496087400000000000000000000000;
    611517301252477020000000000000000000000; 640960546868075960000000000000000000000;
    180852342547984590000000000000000000000; (-63372247933737563000000000000000000000);
    28848804365067555000000000000000000000; 601233694598479360000000000000000000; 6094808731468985100000000000000000;
    8629684602229832200000000000000];
   [3034671998542061200000000000000000000000; 2083249916496087400000000000000000000000;
    611517301252477230000000000000000000000; 640960546868076520000000000000000000000;
    180852342547984590000000000000000000000; (-63372247933737597000000000000000000000);
    28848804365067563000000000000000000000; 601233694598480910000000000000000000; 6094808731468985100000000000000000;
    8629684602229898300000000000000];
   [2589000532415156600000000000000000000000; 281281015400331670000000000000000000000;
    1996886351173455000000000000000000000000; 654173928360925610000000000000000000000;
    617185325658671790000000000000000000000; 17608475581318002000000000000000000000;
    165924926989360100000000000000000000000; (-55610063068358157000000000000000000000);
    27298430467334002000000000000000000000; 150442053909142190000000000000000000;
    594749611639316210000000000000000000; 6143584323261791300000000000000000; 7929826786486933800000000000000;
    51158053105504208000000000000; (-1484083574029886800000000000); 12618464280815118000000000];
   [1391102223633803900000000000000000000000; 1038768712557428400000000000000000000000;
    1760759874157145900000000000000000000000; 774436027462994810000000000000000000000;
    546775561434630420000000000000000000000; 73530110204955076000000000000000000000;
    115292470653987900000000000000000000000; (-27712189007789243000000000000000000000);
    21202259559596325000000000000000000000; 832360452957667450000000000000000000;
    556911589810814790000000000000000000; 6908626117911373800000000000000000; (-134860173485429300000000000000000);
    15542195992782658000000000000000; (-193413050008809550000000000000); 2664062516623165100000000000;
    (-9931391328682246500000000)];
   [5148945080692137700000000000000000000; 1917601158880443400000000000000000000000;
    1480708311552158500000000000000000000000; 923647267169863530000000000000000000000;
    452736854651503910000000000000000000000; 156734737518511510000000000000000000000;
    31554462691875513000000000000000000000; 23113452403522071000000000000000000000;
    8189539275022673500000000000000000000; 2752421411678513100000000000000000000;
    357293481989753320000000000000000000; 27342206801187888000000000000000000; 2467642134579814000000000000000000;
    213941944795610620000000000000000; 4601176034865591700000000000000; 30972223576062995000000000000;
    54500412650638128000000000; 10541326582334014000000];
   [5148945080692137700000000000000000000; 1917601158880443700000000000000000000000;
    1480708311552158500000000000000000000000; 923647267169863530000000000000000000000;
    452736854651505230000000000000000000000; 156734737518511510000000000000000000000;
    31554462691875604000000000000000000000; 23113452403522050000000000000000000000;
    8189539275022667000000000000000000000; 2752421411678513100000000000000000000;
    357293481989754470000000000000000000; 27342206801187884000000000000000000; 2467642134579814000000000000000000;
    213941944795610560000000000000000; 4601176034865607700000000000000; 30972223576063011000000000000;
    54500412650637663000000000; 10541326582337958000000];
   [5148945080692555100000000000000000000; 1917601158880444000000000000000000000000;
    1480708311552158500000000000000000000000; 923647267169862980000000000000000000000;
    452736854651505370000000000000000000000; 156734737518511550000000000000000000000;
    31554462691875573000000000000000000000; 23113452403522080000000000000000000000;
    8189539275022672400000000000000000000; 2752421411678513700000000000000000000;
    357293481989753520000000000000000000; 27342206801187888000000000000000000; 2467642134579812400000000000000000;
    213941944795610560000000000000000; 4601176034865614400000000000000; 30972223576062963000000000000;
    54500412650638365000000000; 10541326582335402000000];
   [5148945080691374400000000000000000000; 1917601158880442900000000000000000000000;
    1480708311552159400000000000000000000000; 923647267169863120000000000000000000000;
    452736854651503910000000000000000000000; 156734737518511510000000000000000000000;
    31554462691875565000000000000000000000; 23113452403522089000000000000000000000;
    8189539275022667000000000000000000000; 2752421411678514200000000000000000000;
    357293481989752850000000000000000000; 27342206801187888000000000000000000; 2467642134579811900000000000000000;
    213941944795610590000000000000000; 4601176034865659400000000000000; 30972223576062950000000000000;
    54500412650638696000000000; 10541326582332041000000];
   [5148945080690336800000000000000000000; 1917601158880444800000000000000000000000;
    1480708311552157400000000000000000000000; 923647267169864230000000000000000000000;
    452736854651505160000000000000000000000; 156734737518511610000000000000000000000;
    31554462691875543000000000000000000000; 23113452403522063000000000000000000000;
    8189539275022671300000000000000000000; 2752421411678516400000000000000000000;
    357293481989753190000000000000000000; 27342206801187905000000000000000000; 2467642134579815100000000000000000;
    213941944795610820000000000000000; 4601176034865600500000000000000; 30972223576063043000000000000;
    54500412650637592000000000; 10541326582339926000000];
   [5148945080691375500000000000000000000; 1917601158880444200000000000000000000000;
    1480708311552157700000000000000000000000; 923647267169863810000000000000000000000;
    452736854651504680000000000000000000000; 156734737518511550000000000000000000000;
    31554462691875560000000000000000000000; 23113452403522045000000000000000000000;
    8189539275022657200000000000000000000; 2752421411678515800000000000000000000;
    357293481989752980000000000000000000; 27342206801187892000000000000000000; 2467642134579812900000000000000000;
    213941944795610720000000000000000; 4601176034865610300000000000000; 30972223576062963000000000000;
    54500412650638207000000000; 10541326582338368000000];
   [5148945080691443800000000000000000000; 1917601158880444200000000000000000000000;
    1480708311552157700000000000000000000000; 923647267169863400000000000000000000000;
    452736854651505090000000000000000000000; 156734737518511550000000000000000000000;
    31554462691875586000000000000000000000; 23113452403522058000000000000000000000;
    8189539275022655100000000000000000000; 2752421411678514200000000000000000000;
    357293481989753860000000000000000000; 27342206801187884000000000000000000; 2467642134579808200000000000000000;
    213941944795610590000000000000000; 4601176034865638200000000000000; 30972223576062942000000000000;
    54500412650638381000000000; 10541326582336941000000];
   [5148945080691998900000000000000000000; 1917601158880443700000000000000000000000;
    1480708311552158000000000000000000000000; 923647267169863950000000000000000000000;
    452736854651504260000000000000000000000; 156734737518511580000000000000000000000;
    31554462691875539000000000000000000000; 23113452403522054000000000000000000000;
    8189539275022668100000000000000000000; 2752421411678514200000000000000000000;
    357293481989752920000000000000000000; 27342206801187884000000000000000000; 2467642134579810800000000000000000;
    213941944795610560000000000000000; 4601176034865590100000000000000; 30972223576062975000000000000;
    54500412650638412000000000; 10541326582337527000000]].
Definition plain_nodes : list (list Z) :=
  [[0];
   [100000000000000020];
   [0; 173205080756887720];
   [74196378430272591; 233441421833897730];
   [0; 135562617997426590; 285697001387280560];
   [61670659019259422; 188917587775371090; 332425743355211930];
   [0; 115440539473996820; 236675941073454150; 375043971772574250];
   [53907981135137517; 163651904243510820; 280248586128754160; 414454718612589450];
   [0; 102325566378913260; 207684797867783020; 320542900285647030; 451274586339978260];
   [48493570751549764; 146598909439115820; 248432584163895460; 358182348355192690; 485946282833231270];
   [0; 92886899738106388; 187603502015484590; 286512316064364470; 393616660712997750; 518800122437487140];
   [44440300194413901; 134037519715161670; 225946445100079930; 322370982877009740; 427182584793228150;
    550090170446774800];
   [0; 85667949351945005; 172541837958823940; 262068997343221490; 356344438028163470; 459139844893652070;
    580016725238650110];
   [41259045795460181; 124268895548546430; 208834474570194440; 296303657983866750; 388692457505976960;
    489693639734556460; 608740954690129140];
   [0; 79912906832454811; 160671006902873010; 243243682700975810; 328908242439876640; 419620771126901550;
    519009359130478210; 636394788882983780];
   [38676060450055738; 116382910055496480; 195198034571633360; 276024504763070190; 360087362417154870;
    449295530252001200; 547222570594934330; 663087819839312950];
   [0; 75184260070389630; 150988330779674080; 228101944025298890; 307379717532819410; 390006571719801040;
    477853158962998400; 574446007865940710; 688912243989533300];
   [36524575550769767; 109839551809150130; 183977992150864570; 259583368891124030; 337473653577809070;
    418802023162940440; 505407268544274050; 600774591135959750; 713946484914647960];
   [0; 71208504404237993; 142887667607837310; 215550276131693510; 289805127651575360; 366441654745063830;
    446587262683103160; 532053637733603860; 626289115651325190; 738257902403043160];
   [34696415708135592; 104294534880275090; 174524732081412700; 245866361117236790; 318901481655339000;
    394396735065731630; 473458133404605520; 557873880589320150; 651059015701365510; 761904854167975910];
   [0; 67804569244064405; 135976582321123040; 204910246825716280; 275059298105237330; 346984669047537640;
    421434398168842160; 499496394478202530; 582938200730447060; 675144471871746090; 784938289511382250];
   [33117931571527381; 99516242227121554; 166412483911790710; 234175999628770800; 303240422783167630;
    374149635026651770; 447636197731086850; 524772443371442510; 607307495112289790; 698598042401881520;
    807402998402171160];
   [0; 64847115353449580; 129987646830397900; 195732755293342420; 262432363405918200; 330504002175296520;
    400477532173330440; 473072419745147330; 549347398647179470; 631034985444839960; 721465943505186220;
    829338602741735360];
   [31737009662945231; 95342192293210926; 159348042981642020; 224046785169175240; 289772864322331400;
    356930676407356100; 426038360501990530; 497804137463912080; 573274717525120090; 654167500509863410;
    743789066602166300; 850780351919525830];
   [0; 62246227918607611; 124731197561678920; 187705836994783870; 251447330395220580; 316277567938819270;
    382590056997249170; 450892992296728500; 521884809364427940; 596601469060670200; 676746496380971680;
    765603795539307620; 871759767839958850]].
Definition plain_weights : list (list Z) :=
  [[10000000000000000000000000000000000000000];
   [5000000000000000000000000000000000000000];
   [6666666666666666300000000000000000000000; 1666666666666667400000000000000000000000];
   [4541241452319314500000000000000000000000; 458758547680684980000000000000000000000];
   [5333333333333334400000000000000000000000; 2220759220056126300000000000000000000000;
    112574113277206910000000000000000000000];
   [4088284695560291900000000000000000000000; 886157460419145230000000000000000000000;
    25557844020562431000000000000000000000];
   [4571428571428575700000000000000000000000; 2401231786050125000000000000000000000000;
    307571239675864910000000000000000000000; 5482688559722187500000000000000000000];
   [3730122576790773600000000000000000000000; 1172399076617589700000000000000000000000;
    96352201207882630000000000000000000000; 1126145383753678400000000000000000000];
   [4063492063492068500000000000000000000000; 2440975028949390900000000000000000000000;
    499164067652179690000000000000000000000; 27891413212317675000000000000000000000;
    223458440077465630000000000000000000];
   [3446423349320194000000000000000000000000; 1354837029802673000000000000000000000000;
    191115805007703170000000000000000000000; 7580709343122197200000000000000000000;
    43106526307183106000000000000000000];
   [3694083694083695700000000000000000000000; 2422402998739700300000000000000000000000;
    661387460710576440000000000000000000000; 67202852355372697000000000000000000000;
    1956719302712232400000000000000000000; 8121849790214903600000000000000000];
   [3216643615128300700000000000000000000000; 1469670480453299500000000000000000000000;
    291166879123641380000000000000000000000; 22033806875331849000000000000000000000;
    483718492259060760000000000000000000; 1499927167637159700000000000000000];
   [3409923409923414900000000000000000000000; 2378715229641358800000000000000000000000;
    791689558604501410000000000000000000000; 117705605059965430000000000000000000000;
    6812363504429261900000000000000000000; 115265965273338850000000000000000000; 272262764280590390000000000000000];
   [3026346268130194500000000000000000000000; 1540833398425136600000000000000000000000;
    386501088242534320000000000000000000000; 44289191069474066000000000000000000000;
    2003395537607438100000000000000000000; 26609913440676334000000000000000000; 48681612577483872000000000000000];
   [3182595182595182000000000000000000000000; 2324622936097322200000000000000000000000;
    894177953998444440000000000000000000000; 173657744921376160000000000000000000000;
    15673575035499571000000000000000000000; 564214640518901570000000000000000000; 5975419597920596100000000000000000;
    8589649899633180500000000000000];
   [2865685212380124100000000000000000000000; 1583383727509492500000000000000000000000;
    472847523540140670000000000000000000000; 72669376011847411000000000000000000000;
    5259849265739097900000000000000000000; 153000321624872860000000000000000000; 1309473216286820300000000000000000;
    1497814723161831400000000000000];
   [2995383701266075600000000000000000000000; 2267063084689787700000000000000000000000;
    974063711627180810000000000000000000000; 230866570257111520000000000000000000000;
    28589460622846499000000000000000000000; 1684914315513394500000000000000000000;
    40126794479798725000000000000000000; 280801611793057830000000000000000; 258431491937491510000000000000];
   [2727832346542878900000000000000000000000; 1606853038935126300000000000000000000000;
    548966324802226540000000000000000000000; 105165177519413520000000000000000000000;
    10654847962916496000000000000000000000; 517989614411619620000000000000000000;
    10215523976369816000000000000000000; 59054884788365484000000000000000; 44165887693587078000000000000];
   [2837731927515210800000000000000000000000; 2209417121991436600000000000000000000000;
    1036036572761440000000000000000000000000; 286666910301184960000000000000000000000;
    45072354203420355000000000000000000000; 3785021094142675900000000000000000000;
    153511459546667440000000000000000000; 2532220032092868100000000000000000; 12203708484474786000000000000000;
    7482830054057230800000000000];
   [2607930634495554400000000000000000000000; 1617393339840002600000000000000000000000;
    615063720639760290000000000000000000000; 139978374471010430000000000000000000000;
    18301031310804918000000000000000000000; 1288262799619289800000000000000000000;
    44021210902308646000000000000000000; 612749025998295970000000000000000; 2482062362315183800000000000000;
    1257800672437930500000000000];
   [2702601835728770700000000000000000000000; 2153337156950598200000000000000000000000;
    1083922856264193800000000000000000000000; 339527297865428390000000000000000000000;
    64396970514087768000000000000000000000; 7080477954815373600000000000000000000;
    421923474255158660000000000000000000; 12253548361482522000000000000000000; 145066128449307400000000000000000;
    497536860412174640000000000000; 209899121956566520000000000];
   [2502435965869350100000000000000000000000; 1619062934136753800000000000000000000000;
    671963114288898910000000000000000000000; 175690728808057740000000000000000000000;
    28087610475772107000000000000000000000; 2622833032559641600000000000000000000;
    133459771268087120000000000000000000; 3319853749814004300000000000000000; 33665141594582109000000000000000;
    98413789823460105000000000000; 34794606478771428000000000];
   [2585097408088390400000000000000000000000; 2099596695775426100000000000000000000000;
    1120733826026209100000000000000000000000; 388671837034809470000000000000000000000;
    85796783914656640000000000000000000000; 11676286374978613000000000000000000000;
    934081860903129830000000000000000000; 40899772449921549000000000000000000; 877506248386171610000000000000000;
    7670888862399907600000000000000; 19229353115677913000000000000; 5732383167802087300000000];
   [2408701155466405600000000000000000000000; 1614595128670002500000000000000000000000;
    720693640171784360000000000000000000000; 211263444089670290000000000000000000000;
    39766089291813113000000000000000000000; 4647187187793976300000000000000000000;
    320950056527459890000000000000000000; 12176597454425830000000000000000000; 226746167348046510000000000000000;
    1718664927964869000000000000000; 3714974152762415900000000000; 939019368904192020000000];
   [2481693511764854800000000000000000000000; 2048510256503404100000000000000000000000;
    1148809243039516400000000000000000000000; 433799701676449710000000000000000000000;
    108567559914623160000000000000000000000; 17578504052637961000000000000000000000;
    1777669069265266000000000000000000000; 106721949052025360000000000000000000; 3530152560245497800000000000000000;
    57380238688993763000000000000000; 379115000047718710000000000000; 710210303700392530000000000;
    153003899799868250000000]].

Definition to_nodes (l : list Z) : list R := map (fun x => IZR x / 10 ^ 17)%R l.
Definition to_weights (l : list Z) : list R := map (fun w => IZR w / 10 ^ 40)%R l.
Definition tabulated (nested : bool) : quadrature_tables :=
  if nested then {| node_data := map to_nodes nested_nodes; weight_data := map to_weights nested_weights |}
  else {| node_data := map to_nodes plain_nodes; weight_data := map to_weights plain_weights |}.
