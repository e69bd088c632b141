(* For each colour of CmapData.v: 10^7 times the fifth root of (c+0.055)/1.055 for red, green and blue (0 for small c),
   10^7 times the linear intensities, and 10^6 times the cube root of the luminance, rounded down.  Written by tools/gen_cmaps.py, checked in PropsCmaps.v. *)
From Coq Require Import ZArith List.
Import ListNotations.
Local Open Scope Z_scope.

Definition magma_cert : list (Z * Z * Z * Z * Z * Z * Z) := [
  (0, 0, 0, 1131, 360, 10732, 138922); (0, 0, 0, 1747, 1002, 14188, 139575);
  (0, 0, 0, 2537, 1784, 18349, 140376); (0, 0, 0, 3492, 2701, 23192, 141317);
  (0, 0, 0, 4605, 3748, 28738, 142396); (0, 0, 6242032, 5873, 4919, 34987, 143609);
  (0, 0, 6337364, 7295, 6208, 41966, 144955); (0, 0, 6427672, 8873, 7606, 49732, 146432);
  (0, 0, 6513287, 10609, 9110, 58291, 148038); (0, 0, 6594815, 12504, 10712, 67675, 149771);
  (0, 0, 6672931, 14562, 12404, 77947, 151632); (0, 0, 6747962, 16789, 14179, 89139, 153618);
  (0, 0, 6820148, 19188, 16033, 101280, 155731); (0, 0, 6889780, 21767, 17957, 114410, 157967);
  (0, 0, 6957248, 24532, 19941, 128602, 160328); (0, 0, 7022711, 27492, 21979, 143898, 162813);
  (0, 0, 7086286, 30656, 24063, 160333, 165421); (6227694, 0, 7148130, 34035, 26184, 177954, 168153);
  (6280138, 0, 7208397, 37638, 28333, 196817, 171007); (6331194, 0, 7267209, 41478, 30500, 216976, 173983);
  (6381077, 6206503, 7324777, 45575, 32671, 238524, 177081); (6429880, 6239796, 7381088, 49938, 34837, 261483, 180301);
  (6477751, 6271044, 7436227, 54587, 36989, 285911, 183642); (6524802, 6300288, 7490259, 59539, 39113, 311862, 187104);
  (6571133, 6327615, 7543257, 64816, 41198, 339396, 190687); (6616837, 6353035, 7595272, 70437, 43229, 368570, 194389);
  (6662014, 6376611, 7646350, 76430, 45193, 399438, 198210); (6706729, 6398340, 7696525, 82818, 47076, 432052, 202150);
  (6751059, 6418248, 7745820, 89631, 48865, 466454, 206209); (6795054, 6436322, 7794255, 96898, 50542, 502684, 210325);
  (6838788, 6452578, 7841837, 104652, 52095, 540771, 214397); (6882293, 6467003, 7888575, 112927, 53510, 580741, 218424);
  (6925640, 6479494, 7934518, 121764, 54763, 622654, 222404); (6968861, 6490075, 7979618, 131202, 55846, 666477, 226340);
  (7011953, 6498771, 8023816, 141276, 56751, 712150, 230233); (7054922, 6505558, 8067088, 152022, 57466, 759629, 234082);
  (7097811, 6510377, 8109421, 163490, 57979, 808869, 237889); (7140650, 6513150, 8150806, 175732, 58276, 859818, 241654);
  (7183354, 6514035, 8191093, 188767, 58371, 912226, 245377); (7225949, 6512971, 8230273, 202646, 58257, 965986, 249058);
  (7268412, 6509987, 8268278, 217407, 57937, 1020895, 252699); (7310642, 6505304, 8304976, 233059, 57439, 1076615, 256298);
  (7352665, 6498877, 8340358, 249653, 56762, 1132965, 259858); (7394344, 6491111, 8374268, 267175, 55953, 1189494, 263378);
  (7435663, 6482074, 8406688, 285651, 55025, 1245946, 266859); (7476507, 6472229, 8437505, 305060, 54031, 1301873, 270303);
  (7516823, 6461868, 8466691, 325396, 53002, 1356953, 273711); (7556530, 6451451, 8494199, 346632, 51986, 1410812, 277084);
  (7595563, 6441407, 8520017, 368739, 51023, 1463138, 280426); (7633870, 6432196, 8544146, 391685, 50154, 1513644, 283737);
  (7671402, 6424281, 8566615, 415429, 49419, 1562108, 287020); (7708132, 6418081, 8587468, 439936, 48849, 1608354, 290277);
  (7744039, 6413919, 8606766, 465168, 48470, 1652266, 293510); (7779126, 6412070, 8624588, 491099, 48303, 1693792, 296721);
  (7813388, 6412776, 8641012, 517693, 48367, 1732908, 299914); (7846859, 6416035, 8656131, 544942, 48663, 1769645, 303089);
  (7879537, 6421964, 8670032, 572807, 49205, 1804050, 306247); (7911475, 6430379, 8682811, 601297, 49984, 1836217, 309391);
  (7942676, 6441252, 8694552, 630379, 51008, 1866237, 312522); (7973202, 6454305, 8705343, 660074, 52262, 1894222, 315641);
  (8003068, 6469364, 8715260, 690364, 53745, 1920279, 318749); (8032309, 6486202, 8724379, 721249, 55448, 1944529, 321847);
  (8060982, 6504500, 8732769, 752758, 57354, 1967088, 324936); (8089076, 6524153, 8740494, 784850, 59468, 1988070, 328016);
  (8116658, 6544824, 8747608, 817574, 61769, 2007577, 331089); (8143754, 6566297, 8754164, 850933, 64246, 2025706, 334154);
  (8170366, 6588479, 8760221, 884908, 66899, 2042589, 337212); (8196548, 6611101, 8765805, 919542, 69708, 2058269, 340264);
  (8222316, 6634044, 8770959, 954839, 72667, 2072837, 343309); (8247684, 6657195, 8775727, 990796, 75769, 2086399, 346348);
  (8272674, 6680457, 8780133, 1027427, 79008, 2099005, 349382); (8297318, 6703691, 8784203, 1064763, 82369, 2110710, 352411);
  (8321630, 6726838, 8787963, 1102810, 85848, 2121577, 355434); (8345621, 6749844, 8791435, 1141574, 89438, 2131656, 358452);
  (8369305, 6772668, 8794650, 1181062, 93135, 2141031, 361466); (8392697, 6795249, 8797611, 1221289, 96931, 2149697, 364475);
  (8415819, 6817544, 8800337, 1262283, 100817, 2157704, 367480); (8438683, 6839542, 8802845, 1304056, 104791, 2165095, 370481);
  (8461295, 6861217, 8805142, 1346610, 108846, 2171885, 373477); (8483667, 6882555, 8807242, 1389963, 112978, 2178107, 376469);
  (8505802, 6903556, 8809163, 1434113, 117185, 2183815, 379457); (8527716, 6924206, 8810903, 1479084, 121461, 2188998, 382442);
  (8549421, 6944498, 8812472, 1524898, 125802, 2193680, 385423); (8570923, 6964435, 8813874, 1571560, 130205, 2197870, 388400);
  (8592228, 6984010, 8815114, 1619084, 134666, 2201585, 391374); (8613344, 7003235, 8816200, 1667484, 139182, 2204842, 394345);
  (8634279, 7022110, 8817132, 1716774, 143751, 2207640, 397312); (8655037, 7040646, 8817916, 1766962, 148371, 2209997, 400277);
  (8675621, 7058844, 8818556, 1818055, 153039, 2211921, 403238); (8696045, 7076712, 8819048, 1870085, 157753, 2213403, 406197);
  (8716304, 7094252, 8819399, 1923042, 162509, 2214460, 409153); (8736407, 7111487, 8819612, 1976944, 167311, 2215102, 412106);
  (8756358, 7128416, 8819681, 2031807, 172153, 2215310, 415057); (8776165, 7145049, 8819609, 2087648, 177036, 2215093, 418006);
  (8795825, 7161391, 8819396, 2144467, 181956, 2214451, 420952); (8815347, 7177456, 8819038, 2202282, 186916, 2213374, 423896);
  (8834730, 7193251, 8818543, 2261100, 191912, 2211883, 426838); (8853983, 7208790, 8817900, 2320942, 196946, 2209950, 429779);
  (8873103, 7224071, 8817113, 2381805, 202015, 2207583, 432717); (8892096, 7239112, 8816181, 2443710, 207120, 2204785, 435654);
  (8910961, 7253927, 8815102, 2506655, 212265, 2201548, 438590); (8929703, 7268514, 8813871, 2570659, 217444, 2197861, 441524);
  (8948325, 7282890, 8812488, 2635732, 222661, 2193727, 444457); (8966828, 7297060, 8810950, 2701882, 227916, 2189138, 447389);
  (8985212, 7311040, 8809257, 2769110, 233211, 2184096, 450320); (9003479, 7324830, 8807409, 2837424, 238545, 2178603, 453250);
  (9021632, 7338450, 8805395, 2906843, 243922, 2172632, 456180); (9039672, 7351906, 8803221, 2977367, 249344, 2166204, 459109);
  (9057598, 7365199, 8800878, 3048993, 254808, 2159295, 462038); (9075413, 7378352, 8798367, 3121741, 260323, 2151915, 464967);
  (9093117, 7391368, 8795686, 3195608, 265887, 2144059, 467896); (9110712, 7404254, 8792827, 3270603, 271503, 2135712, 470825);
  (9128196, 7417027, 8789793, 3346723, 277177, 2126885, 473754); (9145572, 7429693, 8786577, 3423976, 282911, 2117565, 476684);
  (9162839, 7442262, 8783177, 3502359, 288708, 2107754, 479615); (9179997, 7454740, 8779594, 3581878, 294571, 2097458, 482547);
  (9197047, 7467147, 8775819, 3662529, 300508, 2086663, 485480); (9213987, 7479490, 8771853, 3744306, 306523, 2075373, 488414);
  (9230819, 7491770, 8767689, 3827217, 312617, 2063583, 491349); (9247540, 7504013, 8763329, 3911242, 318803, 2051301, 494287);
  (9264153, 7516217, 8758769, 3996400, 325081, 2038530, 497226); (9280653, 7528402, 8754003, 4082656, 331462, 2025258, 500167);
  (9297045, 7540579, 8749029, 4170030, 337953, 2011493, 503111); (9313324, 7552753, 8743846, 4258499, 344559, 1997240, 506057);
  (9329487, 7564936, 8738453, 4348039, 351288, 1982507, 509006); (9345539, 7577151, 8732844, 4438667, 358155, 1967291, 511958);
  (9361475, 7589401, 8727015, 4530346, 365166, 1951590, 514913); (9377292, 7601698, 8720967, 4623061, 372329, 1935422, 517872);
  (9392992, 7614063, 8714695, 4716801, 379662, 1918785, 520834); (9408570, 7626498, 8708197, 4811536, 387170, 1901687, 523800);
  (9424029, 7639026, 8701471, 4907267, 394872, 1884137, 526771); (9439361, 7651655, 8694519, 5003932, 402777, 1866152, 529746);
  (9454566, 7664399, 8687335, 5101516, 410901, 1847732, 532726); (9469640, 7677277, 8679920, 5199982, 419263, 1828896, 535711);
  (9484584, 7690302, 8672275, 5299313, 427878, 1809659, 538701); (9499390, 7703492, 8664395, 5399440, 436769, 1790025, 541697);
  (9514060, 7716855, 8656283, 5500357, 445948, 1770018, 544699); (9528585, 7730407, 8647941, 5601977, 455437, 1749657, 547707);
  (9542968, 7744171, 8639369, 5704291, 465263, 1728958, 550722); (9557198, 7758156, 8630568, 5807205, 475447, 1707941, 553744);
  (9571278, 7772379, 8621526, 5910708, 486013, 1686591, 556774); (9585200, 7786860, 8612259, 6014705, 496991, 1664965, 559811);
  (9598959, 7801608, 8602775, 6119130, 508404, 1643097, 562856); (9612548, 7816645, 8593073, 6223897, 520289, 1620996, 565909);
  (9625964, 7831992, 8583162, 6328938, 532680, 1598703, 568972); (9639202, 7847654, 8573050, 6434177, 545604, 1576248, 572044);
  (9652254, 7863648, 8562747, 6539507, 559099, 1553664, 575125); (9665116, 7879995, 8552237, 6644850, 573206, 1530935, 578217);
  (9677781, 7896704, 8541561, 6750092, 587964, 1508160, 581319); (9690240, 7913791, 8530725, 6855113, 603413, 1485359, 584433);
  (9702486, 7931273, 8519750, 6959793, 619605, 1462590, 587557); (9714514, 7949162, 8508650, 7064042, 636585, 1439886, 590695);
  (9726314, 7967461, 8497434, 7167698, 654394, 1417273, 593844); (9737880, 7986186, 8486132, 7270650, 673089, 1394818, 597007);
  (9749202, 8005345, 8474777, 7372744, 692725, 1372586, 600183); (9760274, 8024941, 8463402, 7473847, 713349, 1350640, 603373);
  (9771085, 8044976, 8452024, 7573799, 735016, 1329012, 606578); (9781627, 8065458, 8440682, 7672441, 757789, 1307768, 609797);
  (9791896, 8086378, 8429422, 7769651, 781715, 1286985, 613032); (9801881, 8107737, 8418286, 7865260, 806855, 1266730, 616283);
  (9811573, 8129528, 8407310, 7959101, 833267, 1247053, 619550); (9820971, 8151737, 8396548, 8051067, 860998, 1228032, 622833);
  (9830063, 8174352, 8386053, 8140966, 890103, 1209738, 626133); (9838849, 8197354, 8375878, 8228708, 920628, 1192242, 629450);
  (9847321, 8220723, 8366076, 8314138, 952621, 1175606, 632785); (9855478, 8244437, 8356702, 8397165, 986125, 1159895, 636137);
  (9863319, 8268465, 8347812, 8477679, 1021171, 1145175, 639506); (9870841, 8292778, 8339457, 8555588, 1057792, 1131497, 642892);
  (9878049, 8317344, 8331705, 8630863, 1096014, 1118940, 646296); (9884940, 8342132, 8324592, 8703397, 1135860, 1107531, 649717);
  (9891522, 8367109, 8318164, 8773189, 1177349, 1097311, 653155); (9897799, 8392234, 8312474, 8840234, 1220482, 1088337, 656611);
  (9903777, 8417466, 8307572, 8904517, 1265251, 1080661, 660081); (9909463, 8442776, 8303469, 8966061, 1311667, 1074273, 663568);
  (9914864, 8468133, 8300200, 9024874, 1359729, 1069209, 667071); (9919988, 8493507, 8297782, 9081007, 1409433, 1065478, 670589);
  (9924848, 8518851, 8296246, 9134538, 1460738, 1063113, 674121); (9929457, 8544138, 8295602, 9185569, 1513629, 1062123, 677668);
  (9933819, 8569348, 8295842, 9234115, 1568099, 1062492, 681228); (9937947, 8594456, 8296966, 9280263, 1624130, 1064221, 684801);
  (9941848, 8619442, 8298970, 9324076, 1681706, 1067309, 688387); (9945536, 8644281, 8301841, 9365667, 1740791, 1071749, 691985);
  (9949020, 8668958, 8305569, 9405107, 1801370, 1077539, 695595); (9952309, 8693461, 8310130, 9442486, 1863428, 1084660, 699217);
  (9955414, 8717769, 8315509, 9477901, 1926923, 1093116, 702849); (9958346, 8741877, 8321681, 9511449, 1991849, 1102891, 706492);
  (9961111, 8765773, 8328619, 9543185, 2058178, 1113976, 710146); (9963718, 8789450, 8336291, 9573206, 2125889, 1126353, 713808);
  (9966177, 8812903, 8344675, 9601596, 2194967, 1140022, 717481); (9968494, 8836127, 8353741, 9628411, 2265393, 1154974, 721163);
  (9970675, 8859122, 8363450, 9653729, 2337160, 1171186, 724853); (9972729, 8881887, 8373782, 9677615, 2410255, 1188666, 728553);
  (9974658, 8904418, 8384699, 9700105, 2484657, 1207397, 732261); (9976469, 8926720, 8396175, 9721259, 2560371, 1227376, 735978);
  (9978166, 8948795, 8408175, 9741120, 2637394, 1248594, 739703); (9979753, 8970643, 8420677, 9759725, 2715708, 1271055, 743436);
  (9981233, 8992269, 8433649, 9777115, 2795320, 1294752, 747178); (9982633, 9013651, 8447067, 9793581, 2876134, 1319688, 750926);
  (9983944, 9034807, 8460899, 9809027, 2958193, 1345855, 754682); (9985161, 9055749, 8475123, 9823385, 3041534, 1373257, 758447);
  (9986284, 9076483, 8489711, 9836650, 3126160, 1401894, 762218); (9987315, 9097015, 8504646, 9848844, 3212085, 1431776, 765998);
  (9988283, 9117322, 8519894, 9860303, 3299193, 1462886, 769784); (9989188, 9137412, 8535441, 9871024, 3387495, 1495243, 773578);
  (9990004, 9157316, 8551266, 9880712, 3477111, 1528850, 777379); (9990735, 9177035, 8567351, 9889389, 3568033, 1563719, 781188);
  (9991416, 9196546, 8583672, 9897482, 3660136, 1599843, 785004); (9992044, 9215856, 8600209, 9904946, 3753432, 1637225, 788826);
  (9992588, 9235001, 8616957, 9911418, 3848075, 1675898, 792657); (9993053, 9253975, 8633901, 9916962, 3944029, 1715871, 796495);
  (9993508, 9272736, 8651000, 9922375, 4041056, 1757097, 800339); (9993878, 9291341, 8668267, 9926790, 4139435, 1799647, 804191);
  (9994163, 9309803, 8685697, 9930188, 4239223, 1843556, 808051); (9994452, 9328053, 8703230, 9933632, 4340024, 1888711, 811917);
  (9994659, 9346163, 8720904, 9936102, 4442224, 1935256, 815791); (9994788, 9364136, 8738703, 9937643, 4545827, 1983189, 819673);
  (9994923, 9381912, 8756571, 9939253, 4650464, 2032400, 823561); (9994973, 9399563, 8774557, 9939843, 4756551, 2083063, 827457);
  (9994973, 9417068, 8792624, 9939843, 4863946, 2135120, 831361); (9994954, 9434411, 8810752, 9939617, 4972532, 2188547, 835272);
  (9994847, 9451641, 8828972, 9938346, 5082610, 2243479, 839192); (9994739, 9468704, 8847229, 9937055, 5193817, 2299786, 843117);
  (9994568, 9485645, 8865554, 9935015, 5306431, 2357604, 847051); (9994342, 9502463, 8883936, 9932319, 5420440, 2416937, 850993);
  (9994112, 9519129, 8902336, 9929577, 5535625, 2477696, 854942); (9993787, 9535704, 8920813, 9925703, 5652404, 2540114, 858900);
  (9993491, 9552114, 8939277, 9922171, 5770244, 2603927, 862864); (9993107, 9568430, 8957802, 9917597, 5889638, 2669425, 866837);
  (9992713, 9584616, 8976336, 9912911, 6010309, 2736460, 870818); (9992276, 9600689, 8994894, 9907707, 6132377, 2805129, 874806);
  (9991796, 9616654, 9013476, 9902004, 6255877, 2875463, 878804); (9991310, 9632493, 9032054, 9896217, 6380643, 2947395, 882808);
  (9990752, 9648245, 9050667, 9889592, 6506989, 3021113, 886822); (9990219, 9663860, 9069254, 9883264, 6634496, 3096412, 890842);
  (9989597, 9679404, 9087884, 9875879, 6763685, 3173609, 894873); (9989022, 9694802, 9106465, 9869060, 6893943, 3252356, 898909);
  (9988344, 9710142, 9125095, 9861025, 7025988, 3333104, 902956); (9987732, 9725337, 9143658, 9853782, 7159065, 3415388, 907009);
  (9987018, 9740474, 9162268, 9845328, 7293924, 3499744, 911073); (9986372, 9755473, 9180809, 9837688, 7429851, 3585679, 915143);
  (9985626, 9770418, 9199385, 9828878, 7567592, 3673719, 919224); (9984957, 9785226, 9217884, 9820976, 7706381, 3763355, 923311);
  (9984192, 9799980, 9236416, 9811952, 7846979, 3855155, 927408); (9983513, 9814603, 9254854, 9803945, 7988644, 3948526, 931512);
  (9982746, 9829172, 9273313, 9794908, 8132112, 4044074, 935627); (9982058, 9843619, 9291682, 9786817, 8276706, 4141257, 939748);
  (9981304, 9858007, 9310051, 9777946, 8423055, 4240575, 943880); (9980616, 9872284, 9328328, 9769865, 8570612, 4341562, 948019);
  (9979888, 9886495, 9346585, 9761317, 8719834, 4444633, 952168); (9979206, 9900610, 9364758, 9753311, 8870411, 4549448, 956324);
  (9978518, 9914654, 9382876, 9745243, 9022581, 4656201, 960491); (9977849, 9928614, 9400923, 9737402, 9176219, 4764814, 964667);
  (9977210, 9942493, 9418883, 9729923, 9331330, 4875205, 968851); (9976555, 9956309, 9436781, 9722266, 9488134, 4987543, 973045);
  (9975973, 9970035, 9454561, 9715464, 9646289, 5101485, 977248); (9975334, 9983715, 9472293, 9707996, 9806328, 5217491, 981462)].
Definition inferno_cert : list (Z * Z * Z * Z * Z * Z * Z) := [
  (0, 0, 0, 1131, 360, 10732, 138922); (0, 0, 0, 1754, 982, 14373, 139576);
  (0, 0, 0, 2553, 1740, 18760, 140377); (0, 0, 0, 3519, 2625, 23923, 141320);
  (0, 0, 0, 4648, 3631, 29843, 142400); (0, 0, 6265125, 5941, 4749, 36572, 143615);
  (0, 0, 6364157, 7400, 5969, 44145, 144962); (0, 0, 6457491, 9027, 7288, 52573, 146440);
  (0, 0, 6546600, 10832, 8688, 61971, 148047); (0, 0, 6631282, 12818, 10167, 72305, 149780);
  (0, 0, 6712454, 14994, 11712, 83671, 151640); (0, 0, 6790548, 17373, 13311, 96129, 153625);
  (0, 0, 6865574, 19963, 14962, 109678, 155735); (0, 0, 6938177, 22780, 16643, 124435, 157967);
  (0, 0, 7008531, 25839, 18345, 140450, 160322); (0, 0, 7076614, 29154, 20062, 157727, 162798);
  (6207691, 0, 7142712, 32746, 21779, 176342, 165395); (6266097, 0, 7207252, 36640, 23470, 196443, 168112);
  (6323198, 0, 7270014, 40854, 25134, 217983, 170947); (6379178, 0, 7331141, 45412, 26756, 241023, 173901);
  (6434211, 0, 7390726, 50343, 28320, 265610, 176970); (6488493, 0, 7449016, 55683, 29801, 291868, 180156);
  (6542125, 0, 7505967, 61464, 31187, 319801, 183455); (6595156, 6203242, 7561547, 67717, 32465, 349404, 186866);
  (6647671, 6221354, 7615793, 74479, 33621, 380699, 190389); (6699744, 6236816, 7668723, 81789, 34638, 413691, 194021);
  (6751433, 6249631, 7720343, 89691, 35502, 448372, 197760); (6802764, 6259776, 7770623, 98225, 36199, 484696, 201603);
  (6853768, 6267240, 7819533, 107436, 36721, 522600, 205550); (6904432, 6272037, 7867031, 117364, 37059, 561992, 209562);
  (6954746, 6274179, 7913056, 128048, 37212, 602741, 213526); (7004684, 6273714, 7957534, 139528, 37178, 644677, 217435);
  (7054195, 6270738, 8000396, 151834, 36967, 687603, 221289); (7103218, 6265371, 8041560, 164991, 36589, 731280, 225090);
  (7151699, 6257799, 8080961, 179023, 36062, 775454, 228840); (7199570, 6248201, 8118540, 193945, 35404, 819851, 232540);
  (7246765, 6236854, 8154239, 209763, 34640, 864174, 236191); (7293177, 6224211, 8188000, 226465, 33807, 908100, 239797);
  (7338744, 6210701, 8219793, 244040, 32937, 951329, 243358); (7383411, 6196789, 8249629, 262473, 32062, 993603, 246878);
  (7427135, 0, 8277518, 281744, 31214, 1034669, 250360); (7469864, 0, 8303505, 301823, 30424, 1074329, 253804);
  (7511590, 0, 8327641, 322688, 29721, 1112408, 257216); (7552305, 0, 8350001, 344313, 29126, 1148784, 260597);
  (7592011, 0, 8370664, 366675, 28660, 1183366, 263949); (7630725, 0, 8389726, 389753, 28339, 1216111, 267276);
  (7668449, 0, 8407280, 413514, 28177, 1246999, 270578); (7705236, 0, 8423424, 437956, 28177, 1276040, 273859);
  (7741122, 0, 8438257, 463070, 28344, 1303266, 277120); (7776142, 0, 8451876, 488844, 28680, 1328732, 280362);
  (7810333, 0, 8464362, 515270, 29183, 1352480, 283587); (7843741, 0, 8475806, 542349, 29853, 1374587, 286797);
  (7876402, 0, 8486285, 570078, 30686, 1395120, 289993); (7908341, 6190605, 8495880, 598446, 31680, 1414167, 293175);
  (7939610, 6208967, 8504653, 627466, 32827, 1431791, 296345); (7970244, 6228991, 8512668, 657142, 34120, 1448067, 299503);
  (8000280, 6250389, 8519981, 687483, 35553, 1463064, 302650); (8029748, 6272907, 8526640, 718494, 37121, 1476847, 305787);
  (8058678, 6296312, 8532696, 750180, 38818, 1489483, 308914); (8087096, 6320385, 8538193, 782548, 40637, 1501038, 312032);
  (8115032, 6344938, 8543164, 815611, 42572, 1511558, 315141); (8142508, 6369821, 8547646, 849372, 44619, 1521103, 318242);
  (8169545, 6394875, 8551670, 883841, 46771, 1529718, 321335); (8196165, 6419990, 8555258, 919028, 49024, 1537437, 324421);
  (8222391, 6445069, 8558444, 954943, 51372, 1544321, 327499); (8248237, 6470045, 8561240, 991593, 53813, 1550388, 330570);
  (8273722, 6494834, 8563670, 1028990, 56339, 1555677, 333634); (8298862, 6519385, 8565752, 1067142, 58949, 1560222, 336693);
  (8323672, 6543676, 8567502, 1106063, 61639, 1564050, 339745); (8348167, 6567652, 8568930, 1145760, 64405, 1567181, 342791);
  (8372355, 6591304, 8570051, 1186237, 67244, 1569644, 345832); (8396243, 6614620, 8570880, 1227496, 70155, 1571467, 348867);
  (8419855, 6637593, 8571421, 1269567, 73135, 1572658, 351897); (8443191, 6660194, 8571681, 1312439, 76180, 1573230, 354922);
  (8466267, 6682426, 8571667, 1356137, 79288, 1573199, 357942); (8489091, 6704301, 8571383, 1400665, 82459, 1572573, 360958);
  (8511668, 6725810, 8570838, 1446027, 85691, 1571374, 363969); (8534008, 6746965, 8570034, 1492234, 88981, 1569605, 366976);
  (8556121, 6767777, 8568972, 1539299, 92332, 1567274, 369980); (8578007, 6788247, 8567660, 1587219, 95739, 1564397, 372979);
  (8599675, 6808384, 8566094, 1636006, 99203, 1560968, 375974); (8621131, 6828199, 8564283, 1685664, 102724, 1557014, 378966);
  (8642382, 6847717, 8562232, 1736208, 106304, 1552544, 381956); (8663429, 6866931, 8559931, 1787632, 109939, 1547544, 384942);
  (8684278, 6885864, 8557383, 1839944, 113632, 1542027, 387925); (8704937, 6904524, 8554585, 1893163, 117382, 1535987, 390906);
  (8725409, 6922919, 8551542, 1947286, 121191, 1529443, 393885); (8745694, 6941063, 8548254, 2002311, 125058, 1522401, 396860);
  (8765799, 6958979, 8544715, 2058251, 128987, 1514854, 399834); (8785728, 6976672, 8540927, 2115110, 132978, 1506817, 402807);
  (8805480, 6994156, 8536891, 2172884, 137032, 1498293, 405778); (8825060, 7011451, 8532603, 2231578, 141154, 1489288, 408747);
  (8844467, 7028554, 8528060, 2291186, 145342, 1479800, 411715); (8863712, 7045484, 8523259, 2351733, 149599, 1469834, 414682);
  (8882788, 7062261, 8518199, 2413192, 153930, 1459397, 417648); (8901705, 7078895, 8512881, 2475589, 158338, 1448502, 420614);
  (8920456, 7095389, 8507301, 2538897, 162822, 1437148, 423578); (8939051, 7111768, 8501459, 2603139, 167390, 1425350, 426544);
  (8957487, 7128035, 8495346, 2668298, 172043, 1413099, 429509); (8975763, 7144205, 8488963, 2734367, 176785, 1400412, 432474);
  (8993886, 7160295, 8482309, 2801359, 181623, 1387295, 435439); (9011855, 7176306, 8475380, 2869265, 186556, 1373758, 438406);
  (9029671, 7192260, 8468174, 2938078, 191595, 1359807, 441373); (9047330, 7208165, 8460692, 3007776, 196741, 1345459, 444341);
  (9064842, 7224029, 8452927, 3078384, 202001, 1330716, 447311); (9082199, 7239865, 8444872, 3149868, 207379, 1315580, 450282);
  (9099405, 7255686, 8436529, 3222228, 212883, 1300067, 453254); (9116461, 7271507, 8427897, 3295454, 218521, 1284194, 456229);
  (9133367, 7287325, 8418973, 3369545, 224294, 1267971, 459205); (9150120, 7303167, 8409753, 3444464, 230215, 1251408, 462184);
  (9166724, 7319032, 8400237, 3520223, 236289, 1234521, 465166); (9183180, 7334930, 8390422, 3596807, 242522, 1217323, 468150);
  (9199481, 7350880, 8380303, 3674176, 248927, 1199822, 471137); (9215636, 7366886, 8369876, 3752354, 255509, 1182030, 474128);
  (9231636, 7382952, 8359137, 3831285, 262277, 1163959, 477122); (9247488, 7399094, 8348089, 3910979, 269242, 1145632, 480120);
  (9263188, 7415322, 8336731, 3991406, 276414, 1127066, 483121); (9278736, 7431640, 8325054, 4072546, 283802, 1108268, 486127);
  (9294130, 7448061, 8313061, 4154369, 291419, 1089261, 489137); (9309369, 7464584, 8300751, 4236852, 299273, 1070062, 492151);
  (9324457, 7481228, 8288119, 4319991, 307379, 1050683, 495170); (9339390, 7497989, 8275162, 4403748, 315745, 1031141, 498194);
  (9354167, 7514886, 8261880, 4488090, 324391, 1011455, 501223); (9368789, 7531910, 8248261, 4573006, 333320, 991628, 504257);
  (9383252, 7549079, 8234313, 4658444, 342553, 971692, 507297); (9397559, 7566394, 8220030, 4744394, 352101, 951657, 510343);
  (9411708, 7583862, 8205416, 4830829, 361980, 931552, 513395); (9425694, 7601482, 8190461, 4917681, 372202, 911382, 516452);
  (9439521, 7619267, 8175172, 5004950, 382788, 891174, 519516); (9453187, 7637216, 8159540, 5092595, 393750, 870940, 522587);
  (9466689, 7655329, 8143568, 5180570, 405104, 850701, 525665); (9480028, 7673612, 8127249, 5268846, 416867, 830467, 528749);
  (9493201, 7692063, 8110586, 5357377, 429056, 810265, 531841); (9506208, 7710692, 8093574, 5446131, 441693, 790104, 534940);
  (9519048, 7729494, 8076208, 5535061, 454792, 769998, 538046); (9531720, 7748467, 8058489, 5624132, 468370, 749969, 541160);
  (9544222, 7767620, 8040413, 5713296, 482454, 730029, 544283); (9556555, 7786943, 8021977, 5802517, 497054, 710193, 547413);
  (9568715, 7806437, 8003179, 5891743, 512194, 690479, 550551); (9580702, 7826103, 7984022, 5980922, 527894, 670904, 553697);
  (9592517, 7845944, 7964495, 6070034, 544179, 651477, 556853); (9604156, 7865942, 7944604, 6159006, 561059, 632218, 560017);
  (9615619, 7886111, 7924338, 6247800, 578568, 613135, 563189); (9626906, 7906436, 7903698, 6336378, 596718, 594243, 566371);
  (9638016, 7926913, 7882673, 6424683, 615530, 575548, 569562); (9648945, 7947547, 7861272, 6512656, 635035, 557075, 572762);
  (9659697, 7968327, 7839475, 6600275, 655248, 538820, 575972); (9670268, 7989245, 7817290, 6687479, 676190, 520804, 579191);
  (9680660, 8010297, 7794702, 6774229, 697884, 503030, 582420); (9690870, 8031485, 7771709, 6860462, 720361, 485510, 585659);
  (9700898, 8052790, 7748304, 6946138, 743629, 468252, 588907); (9710742, 8074215, 7724474, 7031193, 767722, 451260, 592165);
  (9720403, 8095751, 7700217, 7115601, 792658, 434545, 595433); (9729883, 8117392, 7675519, 7199322, 818461, 418112, 598712);
  (9739178, 8139128, 7650377, 7282290, 845152, 401970, 602001); (9748289, 8160951, 7624772, 7364463, 872749, 386120, 605300);
  (9757216, 8182860, 7598693, 7445796, 901284, 370567, 608610); (9765957, 8204843, 7572123, 7526241, 930772, 355314, 611929);
  (9774516, 8226890, 7545059, 7605776, 961232, 340370, 615260); (9782890, 8248998, 7517470, 7684337, 992692, 325732, 618600);
  (9791081, 8271160, 7489350, 7761897, 1025173, 311407, 621952); (9799086, 8293367, 7460666, 7838392, 1058694, 297393, 625314);
  (9806909, 8315612, 7431410, 7913816, 1093278, 283697, 628687); (9814546, 8337885, 7401546, 7988086, 1128939, 270314, 632070);
  (9822002, 8360185, 7371058, 8061215, 1165711, 257251, 635464); (9829275, 8382497, 7339920, 8133140, 1203596, 244509, 638869);
  (9836365, 8404820, 7308092, 8203817, 1242628, 232085, 642284); (9843275, 8427145, 7275544, 8273242, 1282820, 219981, 645711);
  (9850003, 8449467, 7242244, 8341351, 1324195, 208198, 649148); (9856549, 8471776, 7208151, 8408120, 1366765, 196737, 652595);
  (9862916, 8494071, 7173229, 8473527, 1410558, 185599, 656054); (9869105, 8516344, 7137431, 8537550, 1455588, 174784, 659523);
  (9875112, 8538586, 7100699, 8600123, 1501867, 164290, 663003); (9880942, 8560796, 7063000, 8661248, 1549422, 154124, 666493);
  (9886596, 8582966, 7024269, 8720905, 1598265, 144282, 669994); (9892074, 8605093, 6984456, 8779070, 1648417, 134769, 673507);
  (9897374, 8627173, 6943495, 8835683, 1699895, 125585, 677029); (9902500, 8649198, 6901326, 8890747, 1752711, 116732, 680563);
  (9907449, 8671166, 6857887, 8944218, 1806883, 108214, 684106); (9912228, 8693072, 6813107, 8996124, 1862429, 100032, 687661);
  (9916830, 8714911, 6766918, 9046379, 1919357, 92191, 691226); (9921260, 8736684, 6719275, 9094991, 1977696, 84697, 694802);
  (9925520, 8758382, 6670108, 9141963, 2037450, 77552, 698388); (9929607, 8780009, 6619387, 9187236, 2098648, 70764, 701985);
  (9933523, 8801554, 6567082, 9230814, 2161286, 64338, 705592); (9937269, 8823021, 6513203, 9272665, 2225399, 58282, 709210);
  (9940845, 8844402, 6457796, 9312790, 2290984, 52603, 712838); (9944252, 8865699, 6400985, 9351159, 2358065, 47310, 716477);
  (9947489, 8886907, 6342996, 9387755, 2426655, 42416, 720126); (9950558, 8908027, 6284155, 9422567, 2496770, 37928, 723785);
  (9953458, 8929056, 6225019, 9455581, 2568424, 33860, 727455); (9956190, 8949989, 0, 9486767, 2641619, 30224, 731135);
  (9958755, 8970831, 0, 9516134, 2716389, 27036, 734826); (9961151, 8991576, 0, 9543649, 2792736, 24310, 738527);
  (9963380, 9012223, 0, 9569305, 2870671, 22065, 742238); (9965439, 9032771, 0, 9593067, 2950206, 20317, 745959);
  (9967334, 9053222, 0, 9614976, 3031365, 19087, 749691); (9969058, 9073570, 0, 9634954, 3114144, 18397, 753433);
  (9970616, 9093821, 0, 9653039, 3198579, 18270, 757185); (9972004, 9113967, 0, 9669180, 3284654, 18732, 760947);
  (9973225, 9134013, 0, 9683396, 3372404, 19808, 764720); (9974279, 9153957, 0, 9695681, 3461837, 21527, 768503);
  (9975164, 9173796, 0, 9706006, 3552950, 23922, 772296); (9975878, 9193531, 0, 9714347, 3645762, 27024, 776098);
  (9976423, 9213164, 0, 9720722, 3740294, 30871, 779911); (9976800, 9232691, 6249606, 9725131, 3836539, 35500, 783735);
  (9977005, 9252116, 6324454, 9727527, 3934530, 40952, 787568); (9977041, 9271433, 6400556, 9727951, 4034248, 47272, 791411);
  (9976905, 9290644, 6476965, 9726362, 4135709, 54507, 795264); (9976599, 9309750, 6553058, 9722781, 4238934, 62708, 799128);
  (9976121, 9328749, 6628417, 9717188, 4343912, 71931, 803000); (9975470, 9347641, 6702752, 9709583, 4450660, 82231, 806883);
  (9974647, 9366426, 6775926, 9699971, 4559182, 93675, 810776); (9973653, 9385103, 6847847, 9688377, 4669481, 106328, 814678);
  (9972485, 9403671, 6918498, 9674780, 4781556, 120265, 818591); (9971141, 9422132, 6987886, 9659145, 4895426, 135565, 822513);
  (9969626, 9440486, 7056047, 9641544, 5011090, 152313, 826445); (9967939, 9458723, 7123027, 9621981, 5128502, 170598, 830386);
  (9966079, 9476852, 7188899, 9600463, 5247706, 190523, 834337); (9964051, 9494864, 7253715, 9577044, 5368654, 212190, 838296);
  (9961856, 9512762, 7317565, 9551754, 5491357, 235721, 842266); (9959494, 9530539, 7380500, 9524621, 5615777, 261234, 846244);
  (9956971, 9548196, 7442608, 9495703, 5741909, 288869, 850230); (9954291, 9565731, 7503959, 9465074, 5869729, 318776, 854226);
  (9951451, 9583142, 7564635, 9432721, 5999227, 351120, 858231); (9948453, 9600425, 7624721, 9398677, 6130358, 386089, 862243);
  (9945316, 9617576, 7684254, 9363173, 6263078, 423858, 866264); (9942048, 9634584, 7743301, 9326326, 6397284, 464637, 870291);
  (9938666, 9651443, 7801920, 9288323, 6532921, 508648, 874326); (9935170, 9668156, 7860199, 9249193, 6669971, 556164, 878368);
  (9931570, 9684713, 7918223, 9209054, 6808337, 607481, 882417); (9927910, 9701095, 7975991, 9168411, 6947830, 662851, 886470);
  (9924217, 9717293, 8033539, 9127570, 7088325, 722574, 890528); (9920489, 9733303, 8091014, 9086513, 7229747, 787110, 894590);
  (9916795, 9749104, 8148382, 9045993, 7371850, 856755, 898655); (9913192, 9764667, 8205629, 9006629, 7514317, 931843, 902721);
  (9909691, 9779993, 8262921, 8968537, 7657073, 1012985, 906787); (9906408, 9795040, 8320107, 8932946, 7799646, 1100391, 910852);
  (9903398, 9809789, 8377249, 8900434, 7941749, 1194585, 914912); (9900766, 9824207, 8434275, 8872087, 8082958, 1295905, 918967);
  (9898617, 9838262, 8491105, 8849002, 8222821, 1404658, 923014); (9897066, 9851921, 8547632, 8832382, 8360867, 1521073, 927050);
  (9896242, 9865153, 8603692, 8823561, 8496616, 1645200, 931073); (9896264, 9877925, 8659108, 8823794, 8629568, 1776960, 935080);
  (9897252, 9890218, 8713643, 8834372, 8759326, 1916007, 939069); (9899294, 9902019, 8767096, 8856269, 8885565, 2061908, 943039);
  (9902466, 9913321, 8819207, 8890385, 9008040, 2213884, 946989); (9906790, 9924141, 8869837, 8937079, 9126729, 2371307, 950919);
  (9912273, 9934495, 8918782, 8996616, 9241653, 2533185, 954830); (9918876, 9944414, 8965960, 9068797, 9352995, 2698745, 958724);
  (9926534, 9953935, 9011407, 9153173, 9461020, 2867553, 962603); (9935182, 9963099, 9054915, 9249324, 9566068, 3038173, 966468);
  (9944723, 9971941, 9096680, 9356476, 9668445, 3210666, 970323); (9955069, 9980498, 9136762, 9473955, 9768474, 3384604, 974170);
  (9966135, 9988807, 9175219, 9601108, 9866509, 3559571, 978010); (9977839, 9996896, 9212122, 9737289, 9962822, 3735220, 981847)].
Definition plasma_cert : list (Z * Z * Z * Z * Z * Z * Z) := [
  (6308173, 0, 8881360, 39704, 23067, 2408540, 270913); (6458320, 0, 8896993, 52654, 22001, 2459910, 273478);
  (6582240, 0, 8911718, 66143, 21057, 2509213, 276018); (6688519, 0, 8925654, 80160, 20220, 2556705, 278537);
  (6782075, 0, 8938891, 94700, 19477, 2602579, 281037); (6866001, 0, 8951519, 109760, 18815, 2647043, 283521);
  (6942287, 0, 8963592, 125323, 18232, 2690202, 285991); (7012502, 0, 8975176, 141408, 17707, 2732221, 288447);
  (7077740, 0, 8986329, 158028, 17227, 2773243, 290891); (7138790, 0, 8997085, 175184, 16785, 2813340, 293323);
  (7196279, 0, 9007485, 192884, 16373, 2852613, 295745); (7250686, 0, 9017551, 211129, 15983, 2891101, 298157);
  (7302407, 0, 9027314, 229928, 15612, 2928889, 300559); (7351763, 0, 9036795, 249286, 15252, 2966013, 302953);
  (7399018, 0, 9046009, 269208, 14900, 3002508, 305338); (7444399, 0, 9054977, 289704, 14553, 3038423, 307715);
  (7488084, 0, 9063707, 310776, 14205, 3073763, 310085); (7530242, 0, 9072214, 332435, 13856, 3108561, 312448);
  (7571010, 0, 9080507, 354687, 13500, 3142833, 314803); (7610494, 0, 9088595, 377532, 13136, 3176592, 317151);
  (7648799, 0, 9096483, 400977, 12768, 3209833, 319494); (7686021, 0, 9104179, 425029, 12389, 3242570, 321830);
  (7722247, 0, 9111686, 449701, 11998, 3274801, 324160); (7757539, 0, 9119009, 474993, 11593, 3306525, 326484);
  (7791968, 0, 9126150, 500917, 11175, 3337732, 328802); (7825593, 0, 9133111, 527481, 10744, 3368411, 331115);
  (7858455, 0, 9139891, 554685, 10300, 3398539, 333422); (7890601, 0, 9146496, 582533, 9842, 3428129, 335723);
  (7922077, 0, 9152923, 611039, 9372, 3457147, 338020); (7952914, 0, 9159170, 640200, 8891, 3485568, 340312);
  (7983145, 0, 9165242, 670020, 8401, 3513397, 342598); (8012805, 0, 9171131, 700511, 7904, 3540585, 344881);
  (8041918, 0, 9176843, 731671, 7400, 3567135, 347158); (8070518, 0, 9182369, 763514, 6890, 3592999, 349431);
  (8098622, 0, 9187712, 796037, 6376, 3618168, 351700); (8126253, 0, 9192867, 829248, 5863, 3642605, 353965);
  (8153433, 0, 9197831, 863149, 5352, 3666278, 356225); (8180178, 0, 9202605, 897745, 4845, 3689176, 358482);
  (8206499, 0, 9207181, 933028, 4348, 3711250, 360735); (8232424, 0, 9211558, 969020, 3863, 3732479, 362984);
  (8257958, 0, 9215736, 1005708, 3391, 3752842, 365230); (8283115, 0, 9219706, 1043096, 2939, 3772290, 367473);
  (8307910, 0, 9223468, 1081189, 2510, 3790802, 369712); (8332358, 0, 9227017, 1119993, 2108, 3808343, 371949);
  (8356461, 0, 9230349, 1159494, 1737, 3824879, 374183); (8380234, 0, 9233460, 1199703, 1404, 3840377, 376415);
  (8403687, 0, 9236351, 1240620, 1109, 3854829, 378644); (8426826, 0, 9239011, 1282237, 862, 3868175, 380871);
  (8449660, 0, 9241440, 1324558, 664, 3880395, 383095); (8472196, 0, 9243633, 1367577, 524, 3891458, 385318);
  (8494439, 0, 9245587, 1411291, 446, 3901343, 387540); (8516398, 0, 9247299, 1455699, 436, 3910019, 389760);
  (8538079, 0, 9248766, 1500798, 500, 3917468, 391979); (8559482, 0, 9249980, 1546571, 643, 3923647, 394197);
  (8580621, 0, 9250944, 1593033, 872, 3928553, 396414); (8601494, 0, 9251647, 1640163, 1191, 3932141, 398630);
  (8622112, 0, 9252090, 1687968, 1609, 3934398, 400847); (8642470, 0, 9252271, 1736421, 2132, 3935322, 403063);
  (8662581, 0, 9252186, 1785533, 2766, 3934887, 405280); (8682444, 0, 9251829, 1835286, 3517, 3933065, 407497);
  (8702060, 0, 9251202, 1885667, 4394, 3929871, 409714); (8721435, 0, 9250301, 1936670, 5402, 3925281, 411933);
  (8740572, 0, 9249126, 1988283, 6547, 3919299, 414152); (8759474, 0, 9247672, 2040500, 7838, 3911913, 416373);
  (8778142, 0, 9245937, 2093299, 9280, 3903116, 418596); (8796585, 0, 9243921, 2146691, 10878, 3892914, 420821);
  (8814797, 0, 9241619, 2200635, 12641, 3881299, 423047); (8832785, 0, 9239037, 2255132, 14576, 3868306, 425276);
  (8850550, 0, 9236174, 2310166, 16689, 3853943, 427508); (8868091, 0, 9233025, 2365711, 18987, 3838204, 429743);
  (8885412, 0, 9229592, 2421758, 21476, 3821115, 431981); (8902517, 0, 9225876, 2478301, 24161, 3802697, 434222);
  (8919408, 0, 9221883, 2535319, 27051, 3782991, 436467); (8936080, 0, 9217606, 2592775, 30150, 3761992, 438715);
  (8952543, 6218922, 9213051, 2650680, 33464, 3739742, 440968); (8968798, 6271204, 9208220, 2709013, 37000, 3716279, 443225);
  (8984840, 6322023, 9203115, 2767734, 40763, 3691630, 445487); (9000676, 6371478, 9197738, 2826842, 44759, 3665834, 447753);
  (9016309, 6419633, 9192095, 2886327, 48991, 3638934, 450025); (9031738, 6466580, 9186184, 2946157, 53468, 3610955, 452301);
  (9046962, 6512360, 9180016, 3006309, 58191, 3581965, 454583); (9061990, 6557052, 9173590, 3066783, 63169, 3551992, 456870);
  (9076818, 6600688, 9166912, 3127546, 68402, 3521089, 459163); (9091447, 6643336, 9159989, 3188573, 73898, 3489309, 461462);
  (9105883, 6685029, 9152826, 3249863, 79659, 3456706, 463766); (9120127, 6725819, 9145426, 3311394, 85692, 3423319, 466077);
  (9134182, 6765734, 9137795, 3373153, 91998, 3389201, 468394); (9148048, 6804816, 9129943, 3435114, 98581, 3354417, 470718);
  (9161725, 6843090, 9121875, 3497254, 105445, 3319016, 473048); (9175219, 6880602, 9113596, 3559571, 112594, 3283050, 475385);
  (9188531, 6917364, 9105111, 3622041, 120029, 3246558, 477728); (9201661, 6953417, 9096434, 3684638, 127755, 3209623, 480077);
  (9214616, 6988785, 9087562, 3747373, 135775, 3172259, 482434); (9227396, 7023490, 9078510, 3810221, 144090, 3134548, 484798);
  (9240002, 7057561, 9069282, 3873157, 152705, 3096527, 487169); (9252437, 7091008, 9059886, 3936168, 161620, 3058251, 489546);
  (9264704, 7123859, 9050330, 3999252, 170837, 3019766, 491930); (9276807, 7156143, 9040623, 4062397, 180363, 2981128, 494322);
  (9288748, 7187862, 9030766, 4125591, 190194, 2942356, 496720); (9300529, 7219045, 9020771, 4188821, 200335, 2903514, 499126);
  (9312149, 7249705, 9010645, 4252059, 210787, 2864644, 501537); (9323617, 7279862, 9000393, 4315322, 221553, 2825775, 503957);
  (9334933, 7309534, 8990024, 4378595, 232635, 2786956, 506383); (9346101, 7338731, 8979542, 4441870, 244034, 2748214, 508816);
  (9357119, 7367472, 8968953, 4505116, 255753, 2709576, 511255); (9367997, 7395770, 8958267, 4568367, 267794, 2671088, 513702);
  (9378731, 7423636, 8947488, 4631580, 280156, 2632775, 516156); (9389326, 7451090, 8936618, 4694759, 292845, 2594649, 518615);
  (9399786, 7478139, 8925669, 4757907, 305859, 2556756, 521082); (9410116, 7504796, 8914644, 4821029, 319202, 2519116, 523556);
  (9420311, 7531074, 8903546, 4884081, 332876, 2481740, 526035); (9430380, 7556984, 8892381, 4947099, 346882, 2444650, 528521);
  (9440323, 7582538, 8881156, 5010056, 361222, 2407875, 531014); (9450146, 7607746, 8869877, 5072973, 375900, 2371435, 533513);
  (9459846, 7632619, 8858540, 5135809, 390915, 2335319, 536018); (9469430, 7657167, 8847152, 5198599, 406272, 2299545, 538529);
  (9478896, 7681398, 8835720, 5261304, 421971, 2264140, 541047); (9488252, 7705327, 8824241, 5323959, 438019, 2229094, 543570);
  (9497496, 7728957, 8812724, 5386539, 454413, 2194432, 546100); (9506633, 7752297, 8801165, 5449052, 471156, 2160141, 548635);
  (9515661, 7775364, 8789568, 5511472, 488257, 2126231, 551177); (9524587, 7798155, 8777937, 5573837, 505711, 2092714, 553724);
  (9533412, 7820688, 8766277, 5636124, 523528, 2059599, 556277); (9542135, 7842960, 8754587, 5698323, 541701, 2026881, 558835);
  (9550761, 7864991, 8742870, 5760444, 560246, 1994566, 561400); (9559290, 7886778, 8731122, 5822476, 579156, 1962641, 563969);
  (9567725, 7908332, 8719344, 5884428, 598437, 1931104, 566544); (9576067, 7929662, 8707541, 5946292, 618097, 1899968, 569125);
  (9584320, 7950776, 8695707, 6008079, 638137, 1869212, 571712); (9592481, 7971677, 8683848, 6069761, 658561, 1838851, 574304);
  (9600555, 7992370, 8671960, 6131351, 679371, 1808871, 576901); (9608541, 8012864, 8660045, 6192838, 700573, 1779270, 579503);
  (9616446, 8033165, 8648107, 6254251, 722172, 1750060, 582111); (9624263, 8053277, 8636137, 6315532, 744169, 1721213, 584723);
  (9631999, 8073207, 8624142, 6376722, 766572, 1692743, 587342); (9639654, 8092964, 8612114, 6437801, 789390, 1664629, 589965);
  (9647230, 8112548, 8600053, 6498777, 812620, 1636868, 592594); (9654725, 8131966, 8587959, 6559626, 836270, 1609458, 595228);
  (9662140, 8151222, 8575832, 6620340, 860345, 1582396, 597867); (9669479, 8170328, 8563667, 6680933, 884858, 1555669, 600512);
  (9676741, 8189277, 8551471, 6741395, 909802, 1529291, 603161); (9683928, 8208082, 8539235, 6801722, 935191, 1503237, 605816);
  (9691040, 8226745, 8526956, 6861905, 961029, 1477503, 608476); (9698075, 8245273, 8514635, 6921921, 987326, 1452087, 611141);
  (9705036, 8263669, 8502268, 6981780, 1014087, 1426978, 613811); (9711925, 8281935, 8489854, 7041478, 1041314, 1402176, 616487);
  (9718740, 8300076, 8477392, 7101005, 1069018, 1377677, 619168); (9725482, 8318096, 8464883, 7160339, 1097204, 1353479, 621854);
  (9732149, 8336001, 8452318, 7219471, 1125883, 1329566, 624545); (9738744, 8353796, 8439696, 7278396, 1155065, 1305936, 627242);
  (9745269, 8371479, 8427017, 7337127, 1184749, 1282587, 629944); (9751719, 8389056, 8414277, 7395617, 1214947, 1259510, 632651);
  (9758098, 8406532, 8401470, 7453880, 1245669, 1236698, 635364); (9764404, 8423910, 8388604, 7511890, 1276923, 1214162, 638082);
  (9770638, 8441194, 8375666, 7569641, 1308720, 1191880, 640805); (9776800, 8458386, 8362660, 7627126, 1341065, 1169858, 643535);
  (9782888, 8475486, 8349580, 7684317, 1373965, 1148089, 646269); (9788904, 8492501, 8336425, 7741211, 1407432, 1126570, 649009);
  (9794845, 8509431, 8323190, 7797778, 1441473, 1105294, 651754); (9800714, 8526285, 8309875, 7854032, 1476109, 1084262, 654506);
  (9806507, 8543060, 8296478, 7909926, 1511338, 1063470, 657263); (9812228, 8559758, 8282994, 7965475, 1547169, 1042913, 660025);
  (9817874, 8576385, 8269421, 8020651, 1583622, 1022590, 662794); (9823444, 8592944, 8255755, 8075426, 1620705, 1002494, 665568);
  (9828938, 8609435, 8242002, 8129793, 1658425, 982636, 668348); (9834358, 8625858, 8228148, 8183747, 1696789, 962997, 671134);
  (9839698, 8642219, 8214200, 8237237, 1735815, 943590, 673926); (9844961, 8658517, 8200148, 8290260, 1775507, 924401, 676723);
  (9850148, 8674761, 8185991, 8342825, 1815893, 905431, 679528); (9855253, 8690943, 8171731, 8394864, 1856963, 886684, 682338);
  (9860280, 8707072, 8157362, 8446392, 1898742, 868154, 685154); (9865227, 8723148, 8142883, 8497381, 1941239, 849842, 687976);
  (9870094, 8739175, 8128291, 8547822, 1984473, 831746, 690805); (9874879, 8755146, 8113589, 8597686, 2028433, 813872, 693640);
  (9879580, 8771074, 8098763, 8646927, 2073164, 796204, 696482); (9884198, 8786952, 8083822, 8695555, 2118650, 778755, 699329);
  (9888732, 8802785, 8068757, 8743542, 2164918, 761517, 702184); (9893181, 8818574, 8053569, 8790862, 2211978, 744493, 705044);
  (9897544, 8834320, 8038262, 8837503, 2259839, 727689, 707912); (9901819, 8850025, 8022823, 8883419, 2308521, 711093, 710786);
  (9906010, 8865689, 8007265, 8928644, 2358035, 694721, 713667); (9910110, 8881314, 7991561, 8973085, 2408391, 678546, 716554);
  (9914120, 8896900, 7975728, 9016755, 2459600, 662589, 719448); (9918039, 8912448, 7959764, 9059624, 2511681, 646848, 722349);
  (9921867, 8927961, 7943666, 9101666, 2564648, 631323, 725256); (9925604, 8943438, 7927432, 9142891, 2618510, 616013, 728171);
  (9929248, 8958879, 7911063, 9183252, 2673279, 600922, 731093); (9932797, 8974285, 7894558, 9222719, 2728968, 586049, 734021);
  (9936250, 8989658, 7877919, 9261262, 2785596, 571397, 736957); (9939608, 9005001, 7861128, 9298895, 2843188, 556952, 739900);
  (9942867, 9020310, 7844197, 9335547, 2901734, 542727, 742850); (9946027, 9035589, 7827129, 9371210, 2961268, 528725, 745807);
  (9949088, 9050836, 7809926, 9405876, 3021792, 514947, 748771); (9952048, 9066051, 7792580, 9439516, 3083317, 501389, 751742);
  (9954908, 9081237, 7775105, 9472124, 3145868, 488062, 754721); (9957663, 9096395, 7757492, 9503629, 3209459, 474958, 757708);
  (9960317, 9111520, 7739749, 9534066, 3274088, 462085, 760701); (9962864, 9126617, 7721879, 9563363, 3339783, 449444, 763702);
  (9965307, 9141686, 7703885, 9591536, 3406557, 437036, 766711); (9967641, 9156726, 7685771, 9618533, 3474422, 424863, 769727);
  (9969864, 9171742, 7667528, 9644306, 3543416, 412918, 772751); (9971977, 9186727, 7649176, 9668868, 3613517, 401214, 775782);
  (9973978, 9201687, 7630719, 9692173, 3684764, 389749, 778821); (9975868, 9216616, 7612178, 9714235, 3757146, 378536, 781867);
  (9977644, 9231522, 7593545, 9735005, 3830713, 367565, 784922); (9979304, 9246399, 7574843, 9754456, 3905456, 356848, 787984);
  (9980846, 9261248, 7556088, 9772559, 3981388, 346389, 791053); (9982270, 9276072, 7537287, 9789311, 4058537, 336186, 794131);
  (9983576, 9290868, 7518461, 9804687, 4136906, 326247, 797216); (9984759, 9305638, 7499631, 9818636, 4216520, 316576, 800309);
  (9985819, 9320383, 7480810, 9831154, 4297397, 307173, 803411); (9986755, 9335101, 7462036, 9842217, 4379538, 298049, 806520);
  (9987563, 9349790, 7443337, 9851776, 4462955, 289209, 809637); (9988245, 9364457, 7424728, 9859852, 4547695, 280651, 812762);
  (9988795, 9379096, 7406259, 9866373, 4633744, 272387, 815896); (9989216, 9393708, 7387966, 9871362, 4721117, 264422, 819037);
  (9989502, 9408294, 7369889, 9874750, 4809843, 256762, 822186); (9989652, 9422856, 7352074, 9876533, 4899941, 249412, 825344);
  (9989667, 9437390, 7334576, 9876713, 4991410, 242382, 828510); (9989542, 9451898, 7317446, 9875224, 5084266, 235675, 831684);
  (9989275, 9466377, 7300747, 9872062, 5178524, 229301, 834866); (9988868, 9480833, 7284547, 9867232, 5274217, 223270, 838057);
  (9988315, 9495259, 7268915, 9860686, 5371330, 217588, 841256); (9987612, 9509662, 7253907, 9852362, 5469924, 212258, 844463);
  (9986757, 9524039, 7239589, 9842240, 5569988, 207284, 847679); (9985750, 9538389, 7226060, 9830342, 5671536, 202683, 850903);
  (9984591, 9552711, 7213410, 9816655, 5774570, 198466, 854135); (9983278, 9567005, 7201714, 9801178, 5879119, 194639, 857376);
  (9981808, 9581269, 7191062, 9783875, 5985171, 191212, 860625); (9980181, 9595502, 7181530, 9764750, 6092738, 188193, 863882);
  (9978386, 9609713, 7173158, 9743697, 6201907, 185577, 867149); (9976421, 9623896, 7166026, 9720700, 6312643, 183375, 870424);
  (9974292, 9638049, 7160223, 9695836, 6424947, 181601, 873707); (9972002, 9652167, 7155803, 9669158, 6538798, 180260, 876998);
  (9969542, 9666254, 7152786, 9640565, 6654246, 179350, 880298); (9966896, 9680321, 7151155, 9609907, 6771383, 178860, 883607);
  (9964084, 9694350, 7150981, 9577422, 6890081, 178808, 886924); (9961109, 9708340, 7152242, 9543163, 7010353, 179187, 890249);
  (9957931, 9722312, 7154812, 9506699, 7132383, 179961, 893583); (9954594, 9736241, 7158736, 9468533, 7255981, 181149, 896926);
  (9951074, 9750138, 7163854, 9428434, 7381241, 182709, 900277); (9947373, 9764002, 7170047, 9386439, 7508176, 184613, 903636);
  (9943503, 9777825, 7177177, 9342716, 7636725, 186829, 907004); (9939447, 9791615, 7184983, 9297085, 7766980, 189282, 910380);
  (9935225, 9805363, 7193259, 9249803, 7898860, 191914, 913764); (9930843, 9819067, 7201665, 9200969, 8032357, 194623, 917157);
  (9926278, 9832738, 7209752, 9150342, 8167586, 197262, 920558); (9921577, 9846359, 7217075, 9098478, 8304398, 199680, 923967);
  (9916744, 9859925, 7222956, 9045435, 8442744, 201641, 927383); (9911798, 9873439, 7226519, 8991441, 8582654, 202838, 930807);
  (9906762, 9886893, 7226547, 8936780, 8724054, 202847, 934238); (9901689, 9900277, 7221347, 8882018, 8866827, 201103, 937676);
  (9896657, 9913570, 7208404, 8828003, 9010758, 196820, 941119); (9891811, 9926737, 7183895, 8776266, 9155420, 188938, 944564);
  (9887340, 9939732, 7141364, 8728783, 9300290, 175944, 948010); (9883606, 9952456, 7069752, 8689307, 9444159, 155901, 951449)].
Definition viridis_cert : list (Z * Z * Z * Z * Z * Z * Z) := [
  (7887180, 0, 8171646, 579510, 3772, 886573, 266799); (7894544, 0, 8197047, 586036, 7434, 920215, 269779);
  (7901530, 0, 8221889, 592290, 11319, 954244, 272753); (7908138, 0, 8246180, 598261, 15434, 988630, 275720);
  (7914376, 0, 8269920, 603949, 19785, 1023330, 278681); (7920238, 0, 8293134, 609338, 24378, 1058338, 281636);
  (7925737, 0, 8315814, 614434, 29219, 1093597, 284585); (7930870, 6231935, 8337979, 619227, 34314, 1129092, 287529);
  (7935637, 6307706, 8359638, 623708, 39669, 1164796, 290466); (7940045, 6377746, 8380787, 627878, 45290, 1200654, 293398);
  (7944095, 6443090, 8401440, 631732, 51183, 1236644, 296324); (7947780, 6504510, 8421605, 635258, 57355, 1272736, 299245);
  (7951108, 6562570, 8441284, 638457, 63809, 1308886, 302159); (7954080, 6617747, 8460484, 641326, 70554, 1345064, 305069);
  (7956692, 6670404, 8479216, 643859, 77593, 1381237, 307972); (7958952, 6720828, 8497477, 646056, 84932, 1417360, 310871);
  (7960855, 6769267, 8515277, 647913, 92576, 1453401, 313763); (7962407, 6815937, 8532618, 649430, 100532, 1489319, 316650);
  (7963605, 6860986, 8549510, 650603, 108802, 1525088, 319532); (7964458, 6904574, 8565953, 651440, 117393, 1560660, 322408);
  (7964957, 6946819, 8581953, 651930, 126308, 1596003, 325279); (7965108, 6987823, 8597515, 652078, 135551, 1631080, 328144);
  (7964910, 7027684, 8612645, 651884, 145126, 1665860, 331003); (7964368, 7066478, 8627344, 651352, 155037, 1700300, 333857);
  (7963482, 7104275, 8641621, 650483, 165286, 1734373, 336706); (7962251, 7141146, 8655480, 649278, 175879, 1768047, 339549);
  (7960680, 7177127, 8668925, 647742, 186813, 1801287, 342385); (7958777, 7212283, 8681960, 645886, 198094, 1834060, 345216);
  (7956531, 7246655, 8694589, 643703, 209725, 1866331, 348042); (7953956, 7280280, 8706822, 641207, 221705, 1898086, 350862);
  (7951051, 7313196, 8718661, 638402, 234038, 1929291, 353676); (7947818, 7345425, 8730111, 635294, 246719, 1959915, 356483);
  (7944261, 7377002, 8741179, 631891, 259752, 1989941, 359285); (7940383, 7407959, 8751868, 628199, 273138, 2019340, 362081);
  (7936192, 7438309, 8762187, 624232, 286873, 2048097, 364871); (7931694, 7468079, 8772144, 620000, 300959, 2076200, 367654);
  (7926884, 7497293, 8781740, 615503, 315394, 2103620, 370432); (7921774, 7525969, 8790984, 610758, 330178, 2130345, 373203);
  (7916366, 7554116, 8799885, 605773, 345305, 2156374, 375968); (7910671, 7581758, 8808445, 600565, 360777, 2181681, 378727);
  (7904693, 7608906, 8816674, 595141, 376588, 2206264, 381479); (7898434, 7635577, 8824582, 589511, 392737, 2230127, 384225);
  (7891896, 7661782, 8832168, 583682, 409220, 2253243, 386965); (7885101, 7687536, 8839449, 577680, 426035, 2275634, 389698);
  (7878052, 7712847, 8846425, 571513, 443176, 2297278, 392425); (7870744, 7737730, 8853110, 565184, 460641, 2318197, 395145);
  (7863197, 7762192, 8859504, 558714, 478423, 2338368, 397859); (7855411, 7786252, 8865622, 552111, 496525, 2357820, 400567);
  (7847399, 7809911, 8871469, 545392, 514935, 2376548, 403268); (7839168, 7833176, 8877053, 538567, 533647, 2394562, 405962);
  (7830732, 7856068, 8882386, 531653, 552666, 2411882, 408651); (7822092, 7878588, 8887470, 524656, 571980, 2428498, 411334);
  (7813255, 7900747, 8892314, 517588, 591586, 2444430, 414009); (7804236, 7922554, 8896930, 510463, 611480, 2459700, 416679);
  (7795036, 7944018, 8901322, 503289, 631659, 2474310, 419342); (7785679, 7965145, 8905500, 496087, 652115, 2488283, 422000);
  (7776168, 7985939, 8909472, 488863, 672840, 2501634, 424650); (7766506, 8006421, 8913248, 481624, 693842, 2514385, 427296);
  (7756706, 8026586, 8916828, 474382, 715105, 2526532, 429935); (7746778, 8046446, 8920229, 467147, 736630, 2538120, 432568);
  (7736724, 8066009, 8923451, 459923, 758411, 2549144, 435196); (7726565, 8085287, 8926508, 452728, 780450, 2559642, 437818);
  (7716310, 8104277, 8929402, 445570, 802733, 2569619, 440435); (7705967, 8122990, 8932144, 438455, 825261, 2579102, 443045);
  (7695536, 8141434, 8934739, 431386, 848029, 2588110, 445651); (7685037, 8159617, 8937195, 424377, 871039, 2596659, 448251);
  (7674470, 8177547, 8939517, 417427, 894286, 2604768, 450846); (7663850, 8195228, 8941710, 410548, 917768, 2612445, 453436);
  (7653181, 8212667, 8943782, 403742, 941479, 2619718, 456021); (7642475, 8229872, 8945739, 397016, 965421, 2626607, 458602);
  (7631736, 8246848, 8947589, 390373, 989591, 2633130, 461178); (7620976, 8263596, 8949330, 383820, 1013979, 2639286, 463749);
  (7610201, 8280133, 8950976, 377358, 1038598, 2645116, 466316); (7599415, 8296458, 8952529, 370989, 1063439, 2650628, 468879);
  (7588630, 8312577, 8953992, 364720, 1088499, 2655831, 471437); (7577852, 8328497, 8955375, 358553, 1113780, 2660757, 473992);
  (7567088, 8344221, 8956677, 352489, 1139278, 2665404, 476542); (7556344, 8359759, 8957902, 346530, 1164997, 2669783, 479089);
  (7545615, 8375112, 8959056, 340671, 1190933, 2673912, 481631); (7534918, 8390292, 8960141, 334921, 1217096, 2677802, 484172);
  (7524249, 8405298, 8961165, 329274, 1243477, 2681475, 486708); (7513608, 8420138, 8962126, 323729, 1270079, 2684928, 489241);
  (7503014, 8434814, 8963028, 318294, 1296900, 2688172, 491771); (7492456, 8449333, 8963877, 312961, 1323943, 2691229, 494298);
  (7481942, 8463701, 8964672, 307731, 1351213, 2694096, 496823); (7471471, 8477921, 8965415, 302603, 1378708, 2696775, 499344);
  (7461051, 8491998, 8966110, 297577, 1406432, 2699286, 501864); (7450672, 8505936, 8966758, 292647, 1434384, 2701628, 504380);
  (7440339, 8519740, 8967362, 287814, 1462568, 2703813, 506895); (7430054, 8533415, 8967922, 283076, 1490989, 2705839, 509408);
  (7419812, 8546961, 8968438, 278429, 1519640, 2707708, 511918); (7409608, 8560386, 8968912, 273869, 1548533, 2709427, 514427);
  (7399454, 8573692, 8969346, 269399, 1577665, 2711000, 516933); (7389334, 8586882, 8969741, 265010, 1607038, 2712434, 519438);
  (7379247, 8599963, 8970093, 260702, 1636663, 2713710, 521942); (7369202, 8612934, 8970406, 256475, 1666532, 2714847, 524444);
  (7359178, 8625804, 8970678, 252320, 1696660, 2715836, 526945); (7349178, 8638569, 8970912, 248236, 1727038, 2716687, 529444);
  (7339208, 8651237, 8971103, 244225, 1757674, 2717379, 531943); (7329250, 8663810, 8971255, 240278, 1788574, 2717932, 534440);
  (7319309, 8676290, 8971363, 236396, 1819738, 2718325, 536937); (7309374, 8688683, 8971428, 232574, 1851175, 2718560, 539433);
  (7299438, 8700988, 8971448, 228809, 1882882, 2718634, 541928); (7289508, 8713208, 8971425, 225101, 1914861, 2718549, 544422);
  (7279565, 8725350, 8971351, 221444, 1947129, 2718282, 546916); (7269607, 8737409, 8971229, 217836, 1979667, 2717836, 549409);
  (7259636, 8749395, 8971053, 214278, 2012502, 2717198, 551902); (7249650, 8761306, 8970828, 210768, 2045626, 2716379, 554396);
  (7239637, 8773143, 8970547, 207301, 2079038, 2715358, 556888); (7229596, 8784910, 8970207, 203877, 2112748, 2714124, 559380);
  (7219533, 8796608, 8969806, 200497, 2146757, 2712668, 561873); (7209443, 8808240, 8969346, 197160, 2181072, 2711000, 564365);
  (7199331, 8819806, 8968819, 193867, 2215688, 2709088, 566857); (7189197, 8831311, 8968230, 190618, 2250621, 2706954, 569351);
  (7179041, 8842750, 8967567, 187412, 2285854, 2704555, 571843); (7168871, 8854131, 8966831, 184250, 2321407, 2701893, 574336);
  (7158678, 8865453, 8966019, 181131, 2357281, 2698957, 576829); (7148486, 8876718, 8965127, 178061, 2393476, 2695737, 579323);
  (7138300, 8887922, 8964153, 175040, 2429983, 2692223, 581817); (7128130, 8899074, 8963092, 172070, 2466823, 2688404, 584311);
  (7117990, 8910170, 8961941, 169156, 2503986, 2684262, 586806); (7107903, 8921214, 8960697, 166302, 2541485, 2679796, 589301);
  (7097908, 8932200, 8959362, 163517, 2579298, 2675008, 591796); (7087999, 8943139, 8957926, 160799, 2617459, 2669867, 594293);
  (7078216, 8954021, 8956385, 158156, 2655936, 2664363, 596789); (7068583, 8964857, 8954738, 155592, 2694763, 2658488, 599287);
  (7059149, 8975641, 8952983, 153118, 2733919, 2652243, 601785); (7049933, 8986372, 8951109, 150737, 2773404, 2645587, 604283);
  (7041001, 8997056, 8949120, 148461, 2813231, 2638544, 606783); (7032380, 9007690, 8947006, 146294, 2853390, 2631073, 609282);
  (7024152, 9018276, 8944771, 144253, 2893892, 2623198, 611783); (7016355, 9028810, 8942404, 142343, 2934717, 2614878, 614283);
  (7009049, 9039298, 8939906, 140575, 2975887, 2606128, 616785); (7002305, 9049734, 8937269, 138960, 3017380, 2596918, 619287);
  (6996183, 9060123, 8934492, 137509, 3059209, 2587251, 621789); (6990770, 9070464, 8931569, 136238, 3101374, 2577111, 624293);
  (6986136, 9080755, 8928498, 135159, 3143864, 2566500, 626797); (6982368, 9090997, 8925271, 134286, 3186681, 2555390, 629301);
  (6979542, 9101191, 8921893, 133636, 3229824, 2543808, 631806); (6977736, 9111333, 8918354, 133221, 3273282, 2531725, 634311);
  (6977024, 9121426, 8914647, 133058, 3317056, 2519126, 636817); (6977504, 9131470, 8910771, 133168, 3361157, 2506015, 639324);
  (6979231, 9141463, 8906723, 133564, 3405562, 2492388, 641831); (6982280, 9151407, 8902499, 134266, 3450282, 2478240, 644338);
  (6986717, 9161297, 8898094, 135293, 3495294, 2463566, 646846); (6992611, 9171137, 8893508, 136669, 3540610, 2448372, 649354);
  (6999985, 9180926, 8888730, 138409, 3586229, 2432635, 651863); (7008900, 9190661, 8883760, 140539, 3632126, 2416361, 654371);
  (7019364, 9200343, 8878595, 143078, 3678312, 2399556, 656881); (7031395, 9209970, 8873228, 146048, 3724764, 2382209, 659390);
  (7045000, 9219546, 8867655, 149476, 3771504, 2364317, 661900); (7060172, 9229064, 8861875, 153385, 3818493, 2345890, 664409);
  (7076886, 9238530, 8855882, 157799, 3865757, 2326923, 666919); (7095112, 9247936, 8849672, 162746, 3913255, 2307418, 669429);
  (7114804, 9257289, 8843240, 168250, 3961012, 2287374, 671940); (7135919, 9266581, 8836584, 174340, 4008988, 2266800, 674449);
  (7158390, 9275819, 8829696, 181044, 4057207, 2245687, 676960); (7182150, 9284996, 8822577, 188388, 4105640, 2224055, 679470);
  (7207140, 9294112, 8815221, 196406, 4154273, 2201905, 681980); (7233270, 9303170, 8807620, 205123, 4203117, 2179229, 684490);
  (7260468, 9312167, 8799775, 214573, 4252156, 2156049, 686999); (7288662, 9321102, 8791676, 224788, 4301374, 2132358, 689509);
  (7317763, 9329975, 8783324, 235798, 4350768, 2108176, 692018); (7347696, 9338785, 8774710, 247636, 4400324, 2083500, 694527);
  (7378390, 9347532, 8765834, 260339, 4450036, 2058350, 697036); (7409759, 9356211, 8756684, 273936, 4499874, 2032714, 699544);
  (7441743, 9364827, 8747262, 288466, 4549851, 2006623, 702052); (7474261, 9373376, 8737562, 303962, 4599946, 1980083, 704559);
  (7507262, 9381860, 8727577, 320464, 4650158, 1953099, 707067); (7540673, 9390275, 8717303, 338003, 4700455, 1925687, 709573);
  (7574440, 9398621, 8706736, 356620, 4750831, 1897862, 712078); (7608516, 9406898, 8695872, 376356, 4801284, 1869640, 714583);
  (7642847, 9415103, 8684698, 397248, 4851779, 1841012, 717087); (7677386, 9423241, 8673214, 419334, 4902343, 1812011, 719591);
  (7712091, 9431303, 8661416, 442655, 4952910, 1782654, 722093); (7746925, 9439294, 8649293, 467253, 5003507, 1752942, 724595);
  (7781852, 9447214, 8636846, 493169, 5054115, 1722909, 727097); (7816838, 9455057, 8624067, 520443, 5104696, 1692565, 729596);
  (7851853, 9462827, 8610946, 549118, 5155263, 1661921, 732096); (7886871, 9470519, 8597477, 579238, 5205778, 1630994, 734593);
  (7921875, 9478135, 8583651, 610852, 5256237, 1599796, 737090); (7956839, 9485675, 8569464, 644001, 5306635, 1568354, 739586);
  (7991738, 9493135, 8554911, 678726, 5356934, 1536689, 742081); (8026558, 9500516, 8539983, 715076, 5407129, 1504819, 744574);
  (8061283, 9507819, 8524674, 753095, 5457214, 1472765, 747066); (8095896, 9515041, 8508976, 792829, 5507166, 1440547, 749557);
  (8130392, 9522181, 8492880, 834330, 5556964, 1408186, 752047); (8164751, 9529241, 8476375, 877638, 5606603, 1375695, 754535);
  (8198970, 9536215, 8459448, 922808, 5656041, 1343088, 757022); (8233039, 9543107, 8442097, 969889, 5705290, 1310401, 759507);
  (8266947, 9549913, 8424313, 1018924, 5754311, 1277656, 761991); (8300687, 9556634, 8406084, 1069963, 5803096, 1244873, 764473);
  (8334249, 9563271, 8387398, 1123047, 5851640, 1212068, 766953); (8367635, 9569819, 8368253, 1178237, 5899901, 1179283, 769432);
  (8400835, 9576281, 8348628, 1235576, 5947888, 1146519, 771910); (8433844, 9582654, 8328516, 1295111, 5995563, 1113812, 774385);
  (8466662, 9588941, 8307906, 1356896, 6042935, 1081183, 776860); (8499287, 9595135, 8286776, 1420987, 6089944, 1048642, 779332);
  (8531716, 9601240, 8265120, 1487431, 6136602, 1016225, 781802); (8563942, 9607253, 8242926, 1556269, 6182883, 983959, 784271);
  (8595963, 9613176, 8220179, 1627552, 6228780, 951865, 786737); (8627779, 9619007, 8196867, 1701328, 6274269, 919972, 789202);
  (8659384, 9624747, 8172972, 1777641, 6319343, 888301, 791666); (8690777, 9630391, 8148485, 1856537, 6363957, 856885, 794127);
  (8721959, 9635945, 8123378, 1938067, 6408140, 825733, 796587); (8752931, 9641403, 8097643, 2022284, 6451833, 794884, 799044);
  (8783684, 9646766, 8071265, 2109213, 6495027, 764362, 801499); (8814222, 9652035, 8044215, 2198914, 6537731, 734183, 803953);
  (8844545, 9657211, 8016485, 2291427, 6579923, 704381, 806405); (8874650, 9662291, 7988044, 2386793, 6621576, 674972, 808855);
  (8904535, 9667275, 7958876, 2485051, 6662680, 645983, 811303); (8934198, 9672162, 7928972, 2586228, 6703213, 617451, 813749);
  (8963639, 9676955, 7898303, 2690372, 6743184, 589393, 816193); (8992854, 9681655, 7866858, 2797505, 6782588, 561844, 818636);
  (9021841, 9686259, 7834610, 2907651, 6821396, 534821, 821077); (9050602, 9690767, 7801536, 3020853, 6859586, 508348, 823516);
  (9079129, 9695182, 7767631, 3137116, 6897185, 482462, 825953); (9107427, 9699504, 7732863, 3256480, 6934170, 457176, 828389);
  (9135491, 9703732, 7697227, 3378960, 6970532, 432525, 830824); (9163317, 9707868, 7660704, 3504555, 7006266, 408530, 833256);
  (9190908, 9711914, 7623279, 3633298, 7041385, 385214, 835688); (9218255, 9715870, 7584956, 3765170, 7075880, 362607, 838119);
  (9245359, 9719736, 7545726, 3900187, 7109745, 340731, 840549); (9272218, 9723514, 7505602, 4038348, 7142977, 319614, 842977);
  (9298828, 9727208, 7464596, 4179638, 7175606, 299278, 845405); (9325187, 9730818, 7422743, 4324049, 7207626, 279752, 847832);
  (9351290, 9734344, 7380078, 4471556, 7239032, 261054, 850258); (9377135, 9737791, 7336665, 4622133, 7269856, 243211, 852684);
  (9402723, 9741160, 7292601, 4775775, 7300094, 226250, 855110); (9428047, 9744455, 7247995, 4932430, 7329780, 210191, 857537);
  (9453104, 9747676, 7203010, 5092058, 7358907, 195060, 859963); (9477891, 9750828, 7157848, 5254612, 7387512, 180879, 862390);
  (9502405, 9753915, 7112768, 5420042, 7415626, 167673, 864818); (9526646, 9756938, 7068104, 5588310, 7443249, 155466, 867246);
  (9550606, 9759900, 7024238, 5759322, 7470412, 144274, 869676); (9574288, 9762808, 6981674, 5933048, 7497170, 134126, 872108);
  (9597686, 9765662, 6940989, 6109399, 7523506, 125042, 874541); (9620796, 9768468, 6902855, 6288284, 7549488, 117042, 876977);
  (9643620, 9771229, 6868021, 6469658, 7575135, 110148, 879415); (9666157, 9773949, 6837323, 6653440, 7600483, 104383, 881855);
  (9688401, 9776634, 6811593, 6839519, 7625572, 99766, 884299); (9710354, 9779286, 6791663, 7027822, 7650435, 96319, 886746);
  (9732012, 9781911, 6778254, 7218249, 7675112, 94062, 889197); (9753379, 9784512, 6771929, 7410736, 7699640, 93014, 891652);
  (9774452, 9787094, 6773046, 7605176, 7724057, 93198, 894111); (9795234, 9789659, 6781681, 7801497, 7748383, 94634, 896574);
  (9815722, 9792215, 6797648, 7999584, 7772694, 97342, 899043); (9835920, 9794762, 6820507, 8199360, 7796990, 101344, 901516);
  (9855818, 9797313, 6849639, 8400638, 7821390, 106662, 903996); (9875425, 9799863, 6884252, 8603394, 7845854, 113313, 906480);
  (9894747, 9802421, 6923529, 8807582, 7870462, 121319, 908972); (9913786, 9804986, 6966633, 9013114, 7895213, 130699, 911469);
  (9932544, 9807565, 7012800, 9219898, 7920169, 141480, 913974); (9951024, 9810159, 7061301, 9427863, 7945348, 153679, 916485);
  (9969229, 9812772, 7111531, 9636935, 7970776, 167323, 919003); (9987167, 9815408, 7162954, 9847087, 7996509, 182434, 921528)].
