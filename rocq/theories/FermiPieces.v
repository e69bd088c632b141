(* Written by tools/gen_fermi_pieces.py: polynomials over 2^60 for al and be on [2m, 4m].
   These are certificates, checked in PropsFermiTail.v; no property of them is assumed. *)
From Coq Require Import List ZArith.
From Verif Require Import FermiCert.
Import ListNotations.
Open Scope Z_scope.

Definition pcsA : list entry := [
  (144, 4000, [3996285556804569; -3989407025513647; 3982563768649126; -3975755338164428; 3968977946738791; -3962182971659852; 3954938476607200; -3944621108904186; 3920067662832320; -3847756397021038; 3658167442157583; -3260500467902638; 2610119844425358; -1789106739759293; 998447572737108; -428713813316197; 131462230386559; -25444674422109; 2324875074415]);
  (136, 4000, [4230932886344159; -4223225964388116; 4215560852923328; -4207937021434957; 4200350441038830; -4192749991280706; 4184681255290760; -4173381003662040; 4147078071896649; -4070390720473477; 3869871839573999; -3449480049513878; 2761834905016011; -1893504051440025; 1056973576315807; -453966596850731; 139244599312574; -26958470546009; 2463865866355]);
  (128, 4000, [4494854577402228; -4486160080558035; 4477515650073518; -4468920646723729; 4460370758158261; -4451812084853563; 4442765244137058; -4430311321639489; 4402000995301412; -4320373642277689; 4107584310235496; -3661708999370297; 2932266227464950; -2010829118949209; 1122779237192815; -482375426926878; 148004347794573; -28663304895377; 2620480070485]);
  (120, 4000, [4793893511116755; -4784008694364276; 4774184524655157; -4764420216593344; 4754711118914303; -4745000217830724; 4734780238348945; -4720957919103987; 4690322638318612; -4603074867921463; 4376411150303342; -3901757910520186; 3125102930065451; -2143639472185407; 1197310954699215; -514570306513808; 157937507543705; -30597674511640; 2798285371516]);
  (112, 4000, [5135558316425149; -5124220885806316; 5112957887232534; -5101768334368119; 5090647161529830; -5079533835483699; 5067889708022225; -5052424919077088; 5019068057194111; -4925368504582148; 4682888999681944; -4175479131163175; 3345071259124665; -2295214184496636; 1282424906974784; -551360532657574; 169296157316735; -32811133382505; 3001878700087]);
  (104, 4000, [5529662542342052; -5516527070851235; 5503484331733238; -5490533055447007; 5477667655663898; -5464823581213123; 5451426622465352; -5433963487410872; 5397381528044051; -5296199691177623; 5035523391557000; -4490489833457259; 3598326359946954; -2469827346099580; 1380542986599259; -593803221627227; 182409939206591; -35368555878086; 3237284796188]);
  (96, 4000, [5989282610021413; -5973884787726534; 5958604524630982; -5943440140542953; 5928385373376741; -5913371027141563; 5897782223643635; -5877849459927192; 5837391079352096; -5727428256054881; 5445590458800546; -4856891304336976; 3893036019798585; -2673155960173807; 1494885675671884; -643305784826682; 197718280502006; -38356530423888; 3512554730380]);
  (88, 4000, [6532236849254024; -6513937562745819; 6495790378282719; -6477793000405542; 6459938254946085; -6442151490469229; 6423770833100244; -6400729923117341; 6355533990431540; -6235121479340230; 5928365133137331; -5288371145750296; 4240275803022291; -2912906118062118; 1629830025855298; -701783691665061; 215820075906786; -41893232855213; 3838691540932]);
  (80, 4000, [7183449283546756; -7161343881119277; 7139440098506935; -7117734682432182; 7096219168562067; -7074812363234174; 7052797406709715; -7025759788747353; 6974658094585937; -6841602133556998; 6505066326388923; -5803949281582694; 4655448108911263; -3199806852037609; 1791478673707884; -771911643718054; 237552919465459; -46144198552767; 4231131302674]);
  (72, 4007, [7978884014185991; -7951648571136981; 7924688321310595; -7897998450892837; 7871568565242941; -7845309400319280; 7818438776417698; -7786127928566346; 7727486179575856; -7578822378730715; 7206060129614832; -6430853683691726; 5160621214687204; -3549250381424544; 1988600432436063; -857539503357175; 264124548328494; -51348535968418; 4712209092910]);
  (68, 4011, [8446534814768129; -8416037205745145; 8385865311276957; -8356013165033097; 8326469021961398; -8297138791699871; 8267202742557991; -8231593885070504; 8168353894413811; -8010429151335683; 7616439630988556; -6797957679672996; 5456614200732999; -3754168757226955; 2104310851240182; -907857671850409; 279756517817696; -54413642598117; 4995850819206]);
  (64, 4014, [8972419359225137; -8938036305621631; 8904042653218552; -8870430901329691; 8837187566314490; -8804213023671635; 8770645989392561; -8731156038500879; 8662600829991885; -8494186608884798; 8076385189915026; -7209481419821320; 5788567606216654; -3984127749971543; 2234259148708770; -964413949778690; 297341359258721; -57864590364050; 5315463104655]);
  (60, 4015, [9568137476484911; -9529076166879656; 9490485694821616; -9452356480203607; 9414672753543821; -9377328444440806; 9339415977888106; -9295311928858168; 9220553118107908; -9040159896907908; 8595455175946814; -7674001076052662; 6163447056266933; -4244001727356551; 2381233506434229; -1028437952353598; 317266604487358; -61778458254990; 5678278442990]);
  (56, 4018, [10248589051943874; -10203825315084457; 10159638243751017; -10116015382493737; 10072937885820438; -10030292030189510; 9987118255499734; -9937465109655610; 9855386097648925; -9661184191590653; 9185835133045643; -8202451244564138; 6590138310753752; -4540014030504547; 2548797573022053; -1101503173792869; 340028785088968; -66254128881486; 6093586607734]);
  (52, 4019, [11033237486163016; -10981424788954115; 10930328839846210; -10879933115470982; 10830214522417784; -10781050034043673; 10731421142666606; -10675006373261136; 10584180766992684; -10373888868264111; 9863307419772766; -8808995214721341; 7080156842130104; -4880236918815477; 2741578970271278; -1185655489910894; 366274353971292; -71420512683776; 6573514235798]);
  (48, 4028, [11948001790271792; -11887333635869910; 11827571631409996; -11768693345116151; 11710669643969196; -11653365859510546; 11595695836888913; -11530917014641529; 11429488483530507; -11200212852056686; 10648684841781556; -9512311282980195; 7648696800648359; -5275331052682229; 2965696399033394; -1283603593641360; 396860399158266; -77448764394046; 7134184222058]);
  (44, 4030, [13028175246351301; -12956170551087040; 12885334498099050; -12815635807907341; 12747036471514451; -12679386722048266; 12611521586677505; -12536214271739611; 12421714424619739; -12169710230763070; 11569990042078152; -10337547335301614; 8316225010921654; -5739669738943037; 3229409492631063; -1399009039773812; 432947218503971; -84570932299879; 7797487720778]);
  (40, 4037, [14323085075700254; -14236241088655451; 14150940291365249; -14067137670348395; 13984781664964138; -13903702049379527; 13822640178477693; -13733805305010653; 13602868217437773; -13323173522481802; 12665876844748958; -11319387416460855; 9110981544603814; -6293103195893595; 3544139332199749; -1536942146862679; 476143986652365; -93109336324179; 8593878813862]);
  (36, 4045, [15903838593980041; -15797045137252459; 15692348288120202; -15589680779019801; 15488969412872656; -15390014716457236; 15291443703533630; -15184798365558095; 15032695194378178; -14718547490510569; 13991207463229932; -12507046510566894; 10073051340994132; -6963831725730121; 3926131282856053; -1704625437279330; 528746521797797; -103524571138833; 9566945936670]);
  (34, 4053, [16832714682781200; -16713263519094184; 16596287197610950; -16481702107340311; 16369419316662351; -16259219578408441; 16149662154652168; -16031906325603606; 15866817727954943; -15532095214953965; 14763700571264132; -13199388473253201; 10634205144374736; -7355414252799276; 4149404469867704; -1802763324946173; 559574368629829; -109636783018637; 10138760387868]);
  (32, 4059, [17876837296671368; -17742336268193110; 17610785105316779; -17482078546900817; 17356106953871378; -17232626230550928; 17110118531602794; -16979320110163822; 16799164127885724; -16441026414580106; 15626560468805842; -13972776255340592; 11261293790780665; -7793295156184753; 4399285586919058; -1912699917018338; 594142583620941; -116497406274339; 10781218957348]);
  (30, 4060, [19059075883736822; -18906489524483832; 18757457913746562; -18611846622015551; 18469518291359482; -18330196955621290; 18192275752328329; -18046019931287418; 17848216744054004; -17463203751618367; 16596655809456341; -14842322653915664; 11966628374258237; -8286147905896218; 4680783085429393; -2036668586821210; 633163454472950; -124249840788345; 11507940090641]);
  (28, 4065, [20408780299187387; -20234198001924510; 20063952817512348; -19897870263291971; 19735775163901214; -19577349742819854; 19420882581001696; -19256109962831892; 19037419560191466; -18621261242076865; 17695343264304173; -15827151407546674; 12765784832760209; -8844947920072849; 5000237279181662; -2177498257941617; 677539825479008; -133075984646169; 12336211577065]);
  (26, 4072, [21964251589781532; -21762547733075275; 21566211066777240; -21375010903950109; 21188719351646000; -21006962392262934; 20827903195747309; -20640677782152990; 20396968777015681; -19944317451352510; 18950071912387547; -16951826103972177; 13678764353007449; -9483789730386076; 5365793000831142; -2338824843525363; 728432813873015; -143209932348907; 13288298122389]);
  (24, 4079, [23776436747523003; -23540759099481174; 23311832870103899; -23089346519054160; 22872996837504012; -22662332011722053; 22455360898792895; -22240529630161098; 21966442238913352; -21470487288938669; 20396732147513447; -18248439577651883; 14731688424736982; -10221079707396416; 5788089086090424; -2525399558547961; 787360526069078; -154957941184195; 14393347162258]);
  (22, 4082, [25914618623197670; -25635594497724729; 25365226626044453; -25103083753356062; 24848751976451411; -24601668430072612; 24359646104035409; -24110325580914533; 23798767069566662; -23250665558273539; 22083188311872598; -19759751923383215; 15959341639864537; -11081323618393771; 6281290957551565; -2743550398438925; 856345755585168; -168728296252962; 15690238992124]);
  (20, 4090, [28475482579842850; -28139942703030257; 27815754555696477; -27502303528701486; 27199007550453593; -26905139448386743; 26618254025818944; -26325032169799211; 25966397931902717; -25354407334604664; 24074759658741225; -21544051797991940; 17409105767370228; -12097889224666266; 6864685026140794; -3001894198673045; 938143753436939; -185077346574198; 17231978724244]);
  (18, 4101, [31598155200550529; -31186994987302446; 30791130078641770; -30409653942682364; 30041731353556837; -29686576644059641; 29343273141207989; -29009398175862031; 28673672977554624; -28288934267223743; 27706421915815779; -26586361125917681; 24398765415664714; -20686345130178543; 15552943787751517; -9927575929049545; 5138424092032270; -2045138132624177; 582295612476236; -104960387328681; 8963740956572]);
  (17, 4106, [33431317461455158; -32972369648098430; 32531390062832415; -32107260324799212; 31698954469284087; -31305514216616151; 30925859980033524; -30557361023715328; 30188180747432342; -29769063610263161; 29144559246008242; -27959038913740012; 25656611642250644; -21755798547060823; 16362392491001837; -10449214808496537; 5411509179053055; -2155177946339634; 614026814189181; -110752991315453; 9464619685403]);
  (16, 4112, [35490372086132577; -34974783893670029; 34480498999341611; -34006121344523440; 33550376306177690; -33112081837897997; 32689949512475025; -32281093826278765; 31873041975695444; -31414215632924343; 30741774832149968; -29482583215157021; 27052111934450110; -22942076701519100; 17260310533312648; -11028004168743908; 5714625109961518; -2277374048806781; 649281109910020; -117192135668890; 10021702254978]);
  (15, 4111, [37819833397389823; -37236419383846391; 36678524740717914; -36144383686859322; 35632392497684836; -35141074777677194; 34668870407796031; -34212576685873203; 33758986149353629; -33253921875468791; 32526330166176286; -31183626233047638; 28609439388396225; -24265614879139457; 18262132987522804; -11673900292846930; 6053000582420044; -2413843159238563; 688672303090816; -124390563294227; 10644800480079]);
  (14, 4114, [40476739852962625; -39811158650373981; 39176505823695491; -38570514539710553; 37991138051088867; -37436506379867862; 36904700113821611; -36392114285875622; 35884680730274361; -35325289398426283; 34533690969703223; -33095551221803772; 30358865212634784; -25751982643958358; 19387160048291686; -12399345965985214; 6433167329050795; -2567228602740046; 732966694834675; -132488997635870; 11346159206781]);
  (13, 4124, [43535394304719087; -42768949836509419; 42040490463772921; -41347056587044229; 40685993522469000; -40054895215643850; 39451358329971025; -38871257241416715; 38299498232175575; -37675625922554197; 36809010748275131; -35260809393745592; 32338843574220396; -27433633535481616; 20659870665011057; -13220113625339890; 6863401093991705; -2740878218866880; 783134525257469; -141665568398531; 12141274919033]);
  (12, 4128, [47094434854605696; -46202285523612248; 45357506114285475; -44556157005794386; 43794730805193580; -43070075797641504; 42379123238482224; -41717058115523032; 41067540264956934; -40366251659613315; 39410732438237494; -37734276372138323; 34599029322976980; -29352435980923270; 22111821673451826; -14156523772186012; 7354358636286988; -2939101270647872; 840424235205103; -152149414944530; 13050076865146]);
  (11, 4132, [51287693374130478; -50236097063040797; 49244632218909967; -48307935674260502; 47421273442594243; -46580431289302625; 45781403680299704; -45018439200813165; 44273646936365609; -43478182844270924; 42415951565015399; -40588244970120093; 37204763164540659; -31563432484831194; 23784467154029015; -15235253019809046; 7920022674735567; -3167549433163878; 906472563989100; -164240849095935; 14098677296038]);
  (10, 4138, [56301442732359013; -55043371325845296; 53863242559149717; -52753560544205289; 51707774232916679; -50720112312208380; 49785214014086600; -48896018638855817; 48032651750170025; -47120870599990423; 45928651657003925; -43920083839188358; 40243946075244812; -34140597745835643; 25733474895092408; -16492101174221331; 8579147595042333; -3433799521499457; 983472903713624; -178342179713225; 15322046626885]);
  (9, 4103, [62402899038585606; -60870771431597892; 59442227036199219; -58106455534644019; 56854118971609737; -55677087617819684; 54567976716830126; -53517833039225854; 52504160012372308; -51446132303243671; 50092815752071672; -47864418225204606; 43837964256106918; -37185984226641292; 28035579164975757; -17976382697494267; 9357553185403375; -3748277808161203; 1074442281662346; -195006585340710; 16768254106661]);
  (8, 4113, [69989603415833882; -68082651661420779; 66317602780960718; -64678262976808817; 63150837869437033; -61723481701922515; 60385670452368579; -59125607146123965; 57917189024531823; -56671340953086645; 55114222957023225; -52613359456593416; 48159819881358965; -40844891831547773; 30799942850357001; -19758205668389467; 10291925597216363; -4125791376962225; 1183663592703599; -215019052380792; 18505489577782]);
  (7, 4116, [79680035973315621; -77241018967085000; 75003883268492119; -72943202611736448; 71037683040044693; -69269334764207674; 67622536290115227; -66081015871201474; 64613468070927729; -63120109126194879; 61298641976955700; -58451920753432444; 53465852271971559; -45332396307764706; 34188020641093383; -21941193467799284; 11436458966937587; -4588203425815349; 1317458050990158; -239537727112454; 20634324468559]);
  (6, 4129, [92492197383789145; -89261234693270639; 86331702162594344; -83661215216443148; 81215022491090083; -78964345385257011; 76884800430097285; -74952667117236460; 73128680083996880; -71298504030375684; 69123301494415338; -65824238842978309; 60155020255246385; -50982909362031251; 38450657662808135; -24686240315489113; 12875255300109503; -5169427237074490; 1485626898123238; -270357696554691; 23310589046155]);
  (5, 4139, [110229281631403878; -105743329108508852; 101737259445342407; -98134615035958342; 94874397361786930; -91907352093648572; 89192895167629342; -86693996047636597; 84358280990777305; -82050392339300055; 79382431372215826; -75468349351960562; 68889512559076945; -58350986986674043; 44003538576573661; -28259817525758423; 14747536097709460; -5925578686717282; 1704381945003220; -310447101355052; 26791862357818]);
  (4, 4113, [136420810688749029; -129765424441227821; 123945613320429085; -118807507371259387; 114232778812194145; -110129020892542980; 106422624618748083; -103050450585279505; 99936378543859574; -96912001717194736; 93519247677758209; -88723525953483212; 80869755279083269; -68441177729977444; 51599211455364360; -33144107162614983; 17305118649716235; -6958119423300827; 2003025199923247; -365168965529306; 31543412418847]);
  (3, 4134, [179053192468868979; -168128946028065920; 158869448842788591; -150910201680042805; 143985294851119594; -137896600541208797; 132493153141606549; -127653442745917812; 123252331419936537; -119062717153144231; 114516086407903464; -108354427955147351; 98572018191069677; -83324633373990794; 62788640851718530; -40332520271580474; 21066641696062348; -8475954319651884; 2441870251557513; -445559045317436; 38522375224862]);
  (2, 4117, [260950552782642333; -239594569867598745; 222407893230755223; -208255479871422555; 196375958086672193; -186241975349013001; 177477723484259888; -169807980675467940; 163022006510891709; -156930355831911808; 151267425220949610; -145466689325853461; 138309287518526376; -127745009171254053; 111516897929735430; -88866165192650350; 62214687866350302; -36775715329916837; 17592108181284121; -6474805018662748; 1708496511150237; -286290304470262; 22809303753363]);
  (1, 4118, [485805645825811255; -424213035868130001; 379752386858734188; -346100755050423428; 319663976343383620; -298272283944610303; 280546715959405438; -265570817192412514; 252705425609939792; -241452876084431772; 231271997083481221; -221221025314697644; 209420534188601160; -192774400061617297; 167885979752317482; -133588090474926690; 93453728389739688; -55229286396119209; 26423536969212004; -9729040300369864; 2568589440105059; -430690809599006; 34337859249155])].
Definition pcsB : list entry := [
  (1, 4000, [737856013858390233; -691718530039128606; 472651413710084827; -247831433872374837; 104442514719472987; -36642695586364949; 10989197909798524; -2874684437222507; 666388291752094; -138634243216874; 26151721348927; -4511639129592; 716973795381; -105603212115; 14493012037; -1861882584; 224805872; -25596605; 2752829; -278090; 25559; -1920; 86]);
  (2, 4004, [347421814596830679; -410476661078891078; 433967188773289107; -392960027570271627; 302832862920970172; -200447844909431414; 115487179159276484; -58689143076268622; 26622053591549601; -10891010837402216; 4054043166505577; -1383598316689113; 435799830861514; -127407412991084; 34744087318665; -8874635916375; 2129164869999; -479357718933; 100180533593; -18805055243; 2948468305; -335307580; 20122384]);
  (3, 4006, [215650411883098105; -248806172633290704; 286071911725545323; -312924737955752904; 314088385054869774; -284075923030471656; 230390466895296361; -167917894771530629; 110568564134161542; -66192816400707264; 36257130906996548; -18278881073431943; 8524748211963866; -3689871047650367; 1480842955564091; -545415850529665; 179503913148158; -50183186321003; 10965925151580; -1628994767006; 120960496575]);
  (4, 4007, [155872852104652794; -171997738282701742; 193497848424209355; -218581834063072214; 241427076039005876; -253836754633545236; 249229916522143478; -226162696082584993; 188959465454833215; -145388049191637481; 103246394091495142; -67863293056332990; 41361322202160747; -23333439241572455; 12070054955143634; -5602311474744917; 2246992369929919; -736104755954087; 181474569967160; -29463973145447; 2334123201902]);
  (5, 4009, [122296335358087347; -131190016653069945; 142860918964627948; -157953773501343953; 175941687854105003; -194323341166242446; 208765726683436148; -214485006694090687; 208223028559142004; -189669070661299816; 161528356642924270; -128320043808448901; 94718267170966516; -64362670369443453; 39527702919827514; -21294299366256961; 9647995257321633; -3476008945995076; 920938857985680; -157792456735236; 13014185005630]);
  (6, 4008, [100739527621838782; -106322590666137132; 113240321265124512; -122037856759917152; 133175730225217456; -146589033265401072; 161199606063543548; -174729407330083253; 184085895071604472; -186247955889084676; 179215377570497222; -162536160694750587; 137328375283938427; -106190440663078842; 73214017805468498; -43474080897994596; 21294035495811865; -8149744206740583; 2261085426780449; -401250406309098; 33996375186326]);
  (7, 4022, [85686502408129434; -89532780311028606; 94073530553080913; -99584776547804811; 106426038793182799; -114938932672240111; 125223601881970657; -136843650884023627; 148594340743364645; -158463332796208483; 163794646912850985; -161604037335071146; 149218558651532441; -125649263863597549; 93427180264773054; -59079148440534612; 30428714134996624; -12111466882850425; 3463777529507454; -629330969369031; 54314127760557]);
  (8, 4009, [74564046101451660; -77385256067103882; 80608621774932954; -84365135200277702; 88845544895711167; -94298255348892491; 100979991842511451; -109033707682693477; 118286817762571237; -127972098702831973; 136371227781625587; -140501784806064763; 136386569024599204; -120746946724110748; 93950767381525797; -61734081695029623; 32801268000745998; -13382788574748998; 3902937567199952; -720211621683420; 62935237722016]);
  (9, 4030, [66004775632280156; -68166844590334383; 70583754064626127; -73321251845714905; 76474833277242308; -80180197160138288; 84613972219530706; -89965332885285355; 96343825685641663; -103558588370731665; 110686511088835209; -115503413995954934; 114369167743116493; -103601848441895782; 82445484823082586; -55274044449307746; 29872925470280287; -12360303431706295; 3646329356132012; -679205789101465; 59812991416534]);
  (10, 4012, [59211948830503220; -60923446418467695; 62807560692962852; -64900395693954254; 67252019413169094; -69933272582286751; 73042463827929361; -76703462847395719; 81028493492743542; -85977441863433946; 91007609578634775; -94529823647135373; 93660494555891395; -85227791071560687; 68270731931519480; -46098496352868338; 25084808461576614; -10443296978994716; 3097483660618273; -579678094411479; 51255486932789]);
  (11, 4025, [53688871373773883; -55078101303064299; 56590105199059219; -58246449531778702; 60075535690074521; -62115929045181981; 64420603644047752; -67058323705367879; 70094322684554445; -73495628484862451; 76866358810376988; -79006296164973581; 77673955685285778; -70347433586597727; 56228042701026046; -37950330940462978; 20663503031770978; -8612641222762592; 2558140245808910; -479464356557718; 42458275780060]);
  (12, 4012, [49109447425514568; -50259957318259056; 51501086701279908; -52846607284699609; 54313903690319024; -55925510426569088; 57711129229238807; -59707826412664436; 61945515111100704; -64375067658950304; 66661898614818352; -67835363709330675; 66098183738463126; -59441371347940437; 47271400699599058; -31799704656606363; 17279990146706587; -7194579947099350; 2135940079398844; -400305090123830; 35455231421387]);
  (13, 4018, [45250593903326213; -46219233831296954; 47256744436808242; -48372378920233253; 49577454735576492; -50886082769973555; 52316017097410783; -53887797045684195; 55611885981389221; -57429185502887725; 59041699711287251; -59625839526489800; 57681778046260803; -51556289688250566; 40807583090644200; -27358726856041389; 14832791164265086; -6166652109896271; 1829173421332697; -342656975277707; 30344327751761]);
  (14, 4025, [41954485298421163; -42781326398155572; 43661770194660779; -44602283908831108; 45610593618760352; -46696051461448964; 47869953358309748; -49144207679550662; 50519615954721947; -51934441514448398; 53119774604065204; -53356276284201967; 51350820826658034; -45694477197206695; 36042777557265795; -24103844410176137; 13046017378697622; -5418005063919296; 1606118483621204; -300785153483373; 26634736430055]);
  (15, 4034, [39106292307430598; -39820410769785752; 40577085012463165; -41380979919409222; 42237568549524333; -43153328925212299; 44135826365282986; -45192250425001683; 46318749050348625; -47454948641351908; 48357013495550687; -48385049973495474; 46397750563321334; -41160709986937820; 32390881214309608; -21626400112063142; 11693016146236023; -4853278749391972; 1438346727483657; -269360475975226; 23855478142143]);
  (16, 4011, [36620460947159946; -37243476175850814; 37900850790764544; -38596038202595523; 39333032130160586; -40116477500117576; 40951647315623575; -41842996221813581; 42784457767569924; -43718655269625626; 44423435118614758; -44322131958609181; 42390573177677051; -37525512774406264; 29484284601065667; -19665965221092990; 10627137817698461; -4409916222951620; 1306979068068782; -244805613721385; 21687397491962]);
  (17, 4017, [34431935234462051; -34980260982093401; 35556733446146015; -36163965784073346; 36804944412894995; -37483093669515193; 38202204724120692; -38965059898332156; 39764578968659777; -40546847550308528; 41108362838077498; -40924180837548859; 39063937611403792; -34527379423778777; 27099991625068299; -18064665163909877; 9759388610377176; -4049883356059154; 1200511602062210; -224935724845808; 19935136157455]);
  (18, 4033, [32490361392013264; -32976686201636795; 33486361224310809; -34021401280171356; 34584086160142654; -35176998981185842; 35802933695240218; -36463605119199448; 37151530760902010; -37816229639820956; 38270244368366284; -38031785919783721; 36247701776921422; -32001361380710780; 25098984362577458; -16724871394632314; 9035036700748437; -3749876082205934; 1111913777774577; -208417937795995; 18479665537441]);
  (20, 4018, [29197764381972441; -29587952863028627; 29994734265737222; -30419363740524349; 30863232556132736; -31327772520319377; 31813233786637514; -32310264488128876; 32762518898299561; -32960718664714613; 32375744902321133; -30129385607919077; 25449681333327476; -18556226020016986; 11069130682934045; -5090471123257184; 1671805562116256; -346116616406727; 33760149973976]);
  (22, 4028, [26511298999948673; -26831300890862023; 27163517266002937; -27508771070125060; 27867962024011161; -28241975976600679; 28630615033864657; -29025252699821966; 29376122681852627; -29499265935403206; 28929096660868601; -26890975655003123; 22701491416341197; -16552442510116017; 9878259957900784; -4546263544525929; 1494506539183645; -309741840964003; 30246357832318]);
  (24, 4016, [24277656815617219; -24544850950582167; 24821297450179725; -25107558404779636; 25404241283906311; -25711915623556210; 26030166098806700; -26351091497973144; 26630255891227844; -26703725906712031; 26155900169500335; -24293471802379646; 20502278553845240; -14951331784763938; 8927486239468347; -4111919852272254; 1352999364124083; -280703501798404; 27440228711387]);
  (26, 4020, [22391222690021334; -22617686619267871; 22851327123197823; -23092541224933818; 23341753694481462; -23599341116431573; 23864785085963009; -24130849366232952; 24357474450922888; -24396939314608462; 23874010056218821; -22161046501640634; 18699722067351988; -13640217128816148; 8149211650179206; -3756371975102925; 1237130245796048; -256915417697592; 25140171857894]);
  (28, 4029, [20776862940189733; -20971251513868354; 21171318696942332; -21377352900162983; 21589659895062019; -21808493617884287; 22033291961458979; -22257409972539791; 22444430766889265; -22460012947122550; 21962208999607067; -20377562849132188; 17193836821818743; -12545498526538992; 7499448201856124; -3459461813275059; 1140326045570962; -237029549833837; 23216120323340]);
  (30, 4039, [19379666931468664; -19548344747003124; 19721593024991423; -19899626327779133; 20082670218746799; -20270898014777705; 20463735608745241; -20655058224813302; 20811519644157974; -20809998787219606; 20336465918621510; -18862966046308904; 15916021146636102; -11616860058037748; 6948206623393694; -3207475147262925; 1058122095950502; -220131453223139; 21579936433797]);
  (32, 4014, [18158570971110697; -18306323029789354; 18457808148901538; -18613189255495543; 18772636257559841; -18936267992925029; 19103515447800523; -19268710453251293; 19401125213770392; -19387176721837606; 18936584225233917; -17560160397304992; 14817522619793176; -10818642371620496; 6474276886166156; -2990727432545754; 987369274306126; -205576720757123; 20169555931684]);
  (34, 4020, [17082251818964862; -17212744992242806; 17346326634589915; -17483122687298215; 17623263464166909; -17766830132162031; 17913267872842708; -18057309987428646; 18170484524724284; -18147411401277116; 17718256460804506; -16427268627272901; 13862684057973836; -10124819811050975; 6062203045771091; -2802169407259029; 925777279930417; -192896983185895; 18939891729337]);
  (36, 4038, [16126399947391436; -16242491579029129; 16361167422284325; -16482526362308004; 16606669927757855; -16733652732865235; 16862938772261039; -16989615567537029; 17087172547682454; -17057355798905946; 16648117032638767; -15432845410121024; 13024791064957693; -9515926263455736; 5700438255045947; -2636539004474870; 871637450718476; -181742960974420; 17857331145410]);
  (40, 4070, [14503334875136594; -14596952841646315; 14692433290835354; -14789839670883220; 14889236110829434; -14990644407157333; 15093570896715442; -15193696379872994; 15267748088497546; -15229234445713311; 14855527533710721; -13768357104836884; 11622657041728389; -8496768747557447; 5094558346289679; -2358905968727715; 780795254409338; -163006784555408; 16036793752701]);
  (44, 4077, [13177126814384641; -13254218466191640; 13332696528481847; -13412603559552966; 13493981867358174; -13576835638850925; 13660712962290798; -13741768974519222; 13799287893743794; -13756076202167992; 13412834874277596; -12429775232304222; 10495223095638833; -7676931986140973; 4606751127122691; -2135117199933841; 707472263348399; -147861991499332; 14563013580567]);
  (48, 4067, [12073152770569810; -12137737753137830; 12203382477540696; -12270116544093752; 12337968853979764; -12406933860640916; 12476597750693193; -12543501650125112; 12588996155332080; -12543414648417328; 12226402018202129; -11329536033896676; 9568529093082043; -7002732349848513; 4205248011431356; -1950713790045137; 646976087666227; -135349473774550; 13343675733992]);
  (52, 4070, [11139868571258546; -11194761089669482; 11250481774116434; -11307051843105935; 11364491605480378; -11422790075754702; 11481567233998009; -11537683366731121; 11574191173899994; -11527636786509218; 11233348689171974; -10408965645317901; 8793089053741923; -6438279077991461; 3868815327660148; -1796030554113100; 596168965579366; -124827568725444; 12316984517798]);
  (56, 4080, [10340526759360572; -10387755821215957; 10435644329368605; -10484207886954184; 10533461099150246; -10583389977743660; 10633644182039488; -10681351673164986; 10710989902946579; -10664316791376144; 10389855297718509; -9627242503310773; 8134508288543267; -5958637059587370; 3582700329642616; -1664349868577298; 552868813664616; -115849741078659; 11439903929671]);
  (60, 4089, [9648222342720168; -9689287690932037; 9730886660515142; -9773030978715828; 9815731350675780; -9858972209101185; 9902429230221915; -9943457697902924; 9967744090733848; -9921478764359579; 9664436382560802; -8955071830015492; 7568121011260536; -5545927225549733; 3336322342777716; -1550851311456024; 515508712733401; -108095082215059; 10681478990555]);
  (64, 4069, [9042804225046913; -9078838311680149; 9115310277932094; -9152229106255991; 9189602766697983; -9227414962435976; 9265364219047324; -9301001019124623; 9321049971696202; -9275515600565320; 9033879283402074; -8370876895583331; 7075768234207662; -5186986803579839; 3121888801738346; -1451982449890531; 482933004290505; -101326702782223; 10018838160482]);
  (68, 4073, [8508881022320302; -8540754939873160; 8572992598178566; -8605600992035600; 8638586131067911; -8671931502213646; 8705355771968491; -8736578684330005; 8753225424810043; -8708616238889208; 8480690648243876; -7858409523733721; 6643779514385710; -4871905279010752; 2933529799736283; -1365065489987556; 454269836277872; -95365725254194; 9434694434799]);
  (72, 4089, [8034494072212058; -8062888827794485; 8091589022489339; -8120600183252132; 8149926887653835; -8179552717441954; 8209214171889524; -8236779046599073; 8250660834309727; -8207087975647491; 7991434926215550; -7405197999228567; 6261663593546162; -4593075278098574; 2766737223320456; -1288042382938887; 428848564755422; -90074426405297; 8915725224202]);
  (80, 4120, [7228491880954619; -7251442286368566; 7274614147648323; -7298011047193565; 7321635697481818; -7345472352767540; 7369287556827480; -7391195460319380; 7400923149819764; -7359558522355543; 7164936302895962; -6639631431289890; 5616003348290492; -4121649783894492; 2484497102717856; -1157575787792640; 385741254457493; -81091650665225; 8033679708231]);
  (88, 4128, [6569461189066276; -6588395263349999; 6607494984272510; -6626762772856843; 6646200257299782; -6665792623281294; 6685330634817153; -6703124879629632; 6709952190555518; -6670797232605641; 6493522675448813; -6017736285315894; 5091313714820560; -3738262436067541; 2254728068682990; -1051235157340718; 350559037121891; -73750281159978; 7311810149982]);
  (96, 4116, [6020560790251523; -6036447516570663; 6052461363886186; -6068604025324722; 6084876470590566; -6101264861373789; 6117579827929726; -6132292044963497; 6137035820666509; -6099988665297692; 5937255777613845; -5502494744296569; 4656455125208355; -3420302325196414; 2063998236924174; -962869156669336; 321290180671822; -67635595543366; 6709839082502]);
  (104, 4120, [5556313371506254; -5569833352206356; 5583453006809083; -5597173553668514; 5610995548600329; -5624906088535549; 5638732352345394; -5651077862425582; 5654290120673531; -5619209563945451; 5468835135008165; -5068611712984236; 4290145054064591; -3152304997979777; 1903110973164429; -888260324452323; 296553310672484; -62462362908067; 6200019457169]);
  (112, 4128, [5158537583355184; -5170182856391269; 5181907722197278; -5193713078896714; 5205599215068534; -5217554091134920; 5229418859902956; -5239908981742190; 5241974205477076; -5208709200412590; 5068963119393179; -4698211342685581; 3977339585718266; -2923331570294168; 1765554252024786; -824418555494005; 275367683885053; -58027776745399; 5762592577003]);
  (120, 4134, [4813910812942045; -4824045905714449; 4834245561852114; -4844510457223254; 4854840704270441; -4865225047565248; 4875516581793072; -4884526321899655; 4885719170551174; -4854122327821156; 4723611384332891; -4378300891973045; 3707101353910123; -2725423872033714; 1646585927508491; -769163876294907; 257017357002204; -54183587929407; 5383095121272]);
  (128, 4112, [4512447770321643; -4521348480653990; 4530302282921737; -4539309694887992; 4548370711157639; -4557474783427942; 4566485319847336; -4574295824635100; 4574816767267759; -4544750193040552; 4422336560685293; -4099208934850772; 3471286624026630; -2552652693734104; 1542669718601177; -720868908782181; 240967239144147; -50818859203063; 5050690308297]);
  (136, 4115, [4246517066096051; -4254395904326430; 4262318927478271; -4270286538402953; 4278298652120644; -4286345356624044; 4294299050578565; -4301125147407494; 4301123226538666; -4272460630146287; 4157203421809037; -3853587261782851; 3263706187625426; -2400509200884593; 1451114255342328; -678293878113495; 226809245367530; -47848889135168; 4757094653318]);
  (144, 4130, [4010186184209854; -4017209537695660; 4024270055139162; -4031368054282591; 4038503396196483; -4045666741681248; 4052738391840301; -4058746985955499; 4058334792819276; -4030961786048421; 3922074322129597; -3635752473688187; 3079571768337360; -2265503214241658; 1369834620937080; -640477500955744; 214226645917846; -45207869858106; 4495865621380])].
(* the power series of be, over 2^100 *)
Definition serB : list Z := [2535301200456458802993406410752; -1690200800304305868662270940501; 676080320121722347464908376201; -193165805749063527847116678914; 42925734610903006188248150870; -7804679020164182943317845613; 1200719849256028145125822402; -160095979900803752683442987; 18834821164800441492169763; -1982612754189520157070501; 188820262303763824482905; -16419153243805549955035; 1313532259504443996403; -97298685889218073808; 6710254199256418883; -432919625758478638; 26237553076271433; -1499288747215510; 81042634984622; -4156032563314; 202733295771; -9429455617; 419086916; -17833486; 727897; -28545; 1077; -39; 1; 0; 0; 0; 0; 0].
(* asymptotic expansions *)
Definition dqf : Z := 4096.
Definition qaf : list Z := [4096; -2048; 3072; -7680; 26880; -120960; 665280; -4324320; 32432400; -275675400; 2618916300; -27498621150; 316234143225].
Definition qbf : list Z := [4096; 2048; 3072; 7680; 26880; 120960; 665280; 4324320; 32432400; 275675400; 2618916300; 27498621150; 316234143225].
(* asymptotic expansions *)
Definition dqn : Z := 2147483648.
Definition qan : list Z := [2147483648; -1073741824; 1610612736; -4026531840; 14092861440; -63417876480; 348798320640; -2267189084160; 17003918131200; -144533304115200; 1373066389094400; -14417197085491200; 165797766483148800; -2072472081039360000; 27978373094031360000; -405686409863454720000; 6288139352883548160000; -103754299322578544640000; 1815700238145124531200000; -33590454405684803827200000; 655013860910853674630400000; -13427784148672500329923200000; 288697359196458757093348800000; -6495690581920322034600348000000; 152648728675127567813108178000000; -3739893852540625411421150361000000; 95367293239785947991239334205500000; -2527233270854327621767842356445750000; 69498914948494009598615664802258125000; -1980719076032079273560546446864356562500; 58431212742946338570036120182498518593750; -1782151988659863326386101665566204817109375].
Definition qbn : list Z := [2147483648; 1073741824; 1610612736; 4026531840; 14092861440; 63417876480; 348798320640; 2267189084160; 17003918131200; 144533304115200; 1373066389094400; 14417197085491200; 165797766483148800; 2072472081039360000; 27978373094031360000; 405686409863454720000; 6288139352883548160000; 103754299322578544640000; 1815700238145124531200000; 33590454405684803827200000; 655013860910853674630400000; 13427784148672500329923200000; 288697359196458757093348800000; 6495690581920322034600348000000; 152648728675127567813108178000000; 3739893852540625411421150361000000; 95367293239785947991239334205500000; 2527233270854327621767842356445750000; 69498914948494009598615664802258125000; 1980719076032079273560546446864356562500; 58431212742946338570036120182498518593750; 1782151988659863326386101665566204817109375].
