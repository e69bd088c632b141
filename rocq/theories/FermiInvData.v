(* Written by tools/gen_fermi_inv.py; checked in PropsFermiInv.v. *)
From Coq Require Import List ZArith QArith.
From Verif Require Import FermiInvReg.
Import ListNotations.
(* 72057594037927945 exp x on [0, 2], without the constant term *)
Definition iexp : list Z := [72057594037925974; 36028797019037124; 12009599005246101; 3002399759844682; 600479912126259; 100080106667811; 14296905045680; 1787485730865; 198216034754; 20120809845; 1666766126; 200261756; 71252; 2282173]%Z.
Definition iexp0 : positive := 72057594037927945%positive.
(* 1152921504606990892 exp x on [0, 4.25], without the constant term *)
Definition iexpb : list Z := [1152921504587281575; 576460752744556635; 192153580170187141; 48038414431217907; 9607627016937986; 1601377226800112; 228628343001371; 28711082363874; 3097799744388; 357626696595; 13986747577; 6499294454; -625278999; 124191813; -8779996; 491189]%Z.
Definition iexpb0 : positive := 1152921504606990892%positive.
(* y and the rational factor of fdm12(x) for x = ifdm12(y), x in [2, 17/4] *)
Definition ibm12 : chkb := {| b_cen := 25 # 8; b_hw := 9 # 8; b_p := [3698833289869; 772433703699; -70194648700; 5041950286; 1528110413; -785145732; 180797263; -17103705; -4508953; 2509680; -569486; 65904; 24088; -8956]%Z; b_f := [2092376081258; 60326792059; -16670414992; 728770498; 1660070034; -988946657; 377552449; -118950119; 35071084; -10686111; 3557697; -1312565; 481008; -125469; 38993; -38497; 15264]%Z; b_W := 2^40; b_g := 2^40; b_g2 := 2^88 |}.
(* y and the rational factor of fd12(x) for x = ifd12(y), x in [2, 49/16] *)
Definition ib12 : chkb := {| b_cen := 81 # 32; b_hw := 17 # 32; b_p := [3565622489587; 868864905838; 53277585603; -1465973247; -6526829; 11628867; -1447811; 69595; 6696; -1774]%Z; b_f := [885386303833; -62983275998; 18432658268; -4614962648; 1070112418; -240028136; 53207067; -11748949; 2585933; -561164; 122676; -31622; 6888]%Z; b_W := 2^40; b_g := 2^20; b_g2 := 2^88 |}.
(* fd32(x) and y^(-2/5) for x = ifd32(y), x in [3/2, 2] *)
Definition ic32 : chkc := {| c_cen := 7 # 4; c_hw := 1 # 4; c_p := [5121748166322; 902863493141; 62035900015; 1638252515; -10520540; -525246; 36126; -718]%Z; c_q := [594172392997; -41896364660; 2291146351; -94651803; 2615327; -23813; -1357; 18]%Z; c_W := 2^40; c_g := 2^16 |}.
(* fd52(x) and y^(-2/7) for x = ifd52(y), x in [1/4, 2] *)
Definition ic52 : chkc := {| c_cen := 9 # 8; c_hw := 7 # 8; c_p := [9346230118101; 7057674823910; 2388497472526; 441780508007; 39829700634; -23307467; -210494589; 20100812; 1941879; -681738; 31485; 15810; -4684]%Z; c_q := [596549519209; -128707428296; 18922440190; -1714223873; 52866111; 3118609; 1177565; -319793; -5312; 561; 5975; -1744; 3]%Z; c_W := 2^40; c_g := 2^16 |}.
(* x y^(-2/1) for x = ifdm12(y) and x^(-1/2) fdm12(x), 1/x in [0, 121/1024] *)
Definition idm12_lo : chkd := {| d_cen := 121 # 2048; d_hw := 121 # 2048; d_q := [275681526058; 1638184333; 885938717; 78815383; 38023457; 12063999; -4130703; -8882103; -1387549; 3574950; 1188403; -1069098; -482758; 171215; 90823]%Z; d_f := [2195815812513; -6524131011; -3499311179; -282123957; -139439826; -48000239; 14916396; 43328249; 9048740; -28030921; -7656042; 19372082; 2960933; -11244147; -87878; 4259802; -440101; -746783; 135074]%Z; d_W := 2^40; d_g := 2^32; d_g2 := 2^88 |}.
(* x y^(-2/1) for x = ifdm12(y) and x^(-1/2) fdm12(x), 1/x in [121/1024, 121/512] *)
Definition idm12_hi : chkd := {| d_cen := 363 # 2048; d_hw := 121 # 2048; d_q := [283466535002; 6479174604; 1252358639; -144274616; -49329387; 12803217; 461900; -1074558; 235727; 8080]%Z; d_f := [2165453399948; -24747782908; -4359245009; 706782037; 180763173; -58768622; -545474; 4213692; -1268547; 130709; 50531; -32399; 8732; -861]%Z; d_W := 2^40; d_g := 2^32; d_g2 := 2^88 |}.
(* x y^(-2/3) for x = ifd12(y) and x^(-3/2) fd12(x), 1/x in [0, 1/6] *)
Definition id12_lo : chkd := {| d_cen := 1 # 12; d_hw := 1 # 12; d_q := [1432544497563; -16444466952; -8240024732; -63608311; -60829123; 12761038; 47193930; 6191579; -18454241; -1693367; 5713274; 113869; -957606; 29097]%Z; d_f := [739328395180; 12730387515; 6561513030; 234231025; 99128554; -4059962; -40291552; -7679683; 23673868; -799387; -16608431; 7139394; 9646480; -7504739; -3610325; 3794392; 624234; -789373]%Z; d_W := 2^40; d_g := 2^16; d_g2 := 2^88 |}.
(* x y^(-2/3) for x = ifd12(y) and x^(-3/2) fd12(x), 1/x in [1/6, 1/3] *)
Definition id12_hi : chkd := {| d_cen := 1 # 4; d_hw := 1 # 12; d_q := [1367013563376; -47766207588; -6153586170; 944699570; 65187560; -38088671; 3443070; 1151310; -500183; 86978]%Z; d_f := [793122614727; 41569945750; 7170936903; -280287210; -66694182; 19818905; -1337492; -741541; 330365; -73350; 7280; 2265; -1973; 587]%Z; d_W := 2^40; d_g := 2^16; d_g2 := 2^88 |}.
(* x y^(-2/5) for x = ifd32(y) and x^(-5/2) fd32(x), 1/x in [0, 1/4] *)
Definition id32_lo : chkd := {| d_cen := 1 # 8; d_hw := 1 # 8; d_q := [1529203777973; -106496573479; -39040320796; 12227381261; 754196136; -1152520717; 56750689; 164320280; -26122756; -57604688; 31826337; 17092268; -17883801; -1700309; 3489202]%Z; d_f := [481987733059; 83916275777; 40989909240; -1068052378; -291806800; 124394696; 73210962; -58959447; -5748883; 38441906; -28455324; -12482355; 33262347; -4440031; -19198167; 5654201; 5697538; -1534948; -655432]%Z; d_W := 2^40; d_g := 2^16; d_g2 := 2^88 |}.
(* x y^(-2/5) for x = ifd32(y) and x^(-5/2) fd32(x), 1/x in [1/4, 1/2] *)
Definition id32_hi : chkd := {| d_cen := 3 # 8; d_hw := 1 # 8; d_q := [1245716042450; -145747387029; 7499851699; 2208353228; -889512374; 183612980; -20038706; -1981765; 1732286; -538106; 91462]%Z; d_f := [804732888411; 235382118096; 36081751559; -68429569; 158698174; -23522750; 1161667; 675223; -311563; 84503; -16010; 1669; 353; -410; 136]%Z; d_W := 2^40; d_g := 2^16; d_g2 := 2^88 |}.
(* x y^(-2/7) for x = ifd52(y) and x^(-7/2) fd52(x), 1/x in [0, 1/4] *)
Definition id52_lo : chkd := {| d_cen := 1 # 8; d_hw := 1 # 8; d_q := [1483082685209; -159494473085; -45553819002; 25101278498; -2451571341; -2308563377; 1102453609; -36062170; -168315346; 67702221; 8777951; -16577846; 2971399; 2057716; -759877]%Z; d_f := [385762887597; 145200773899; 76605622954; 4144556172; 1185594294; 27303942; -58576292; -4919617; 20165951; -9772063; -3059337; 11458580; -6540241; -6907106; 7421743; 2297923; -3563343; -330048; 687721]%Z; d_W := 2^40; d_g := 2^16; d_g2 := 2^88 |}.
(* x y^(-2/7) for x = ifd52(y) and x^(-7/2) fd52(x), 1/x in [1/4, 1/2] *)
Definition id52_hi : chkd := {| d_cen := 3 # 8; d_hw := 1 # 8; d_q := [1119268518056; -165498986368; 16462256317; 641750057; -893101298; 287588375; -61930451; 8480082; 65737; -520363; 233121; -54854]%Z; d_f := [1033068718295; 534636097667; 124689158145; 10758817603; 462540305; -41867716; 6755799; -942636; 67397; 17790; -10410; 3154; -778; 163; -7; -7]%Z; d_W := 2^40; d_g := 2^16; d_g2 := 2^88 |}.
