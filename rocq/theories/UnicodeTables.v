(** The table of character types of TameParse/Unicode/unicode_data.h (lines 3-66), copied from that file.
    The end markers of the range lists are left out.  No proofs in this file. *)
From Verif Require Import Base SymbolSetModel.
Local Open Scope Z_scope.

(** unicode_data.h 3: s_RangeCo *)
Definition range_Co : list range := [
  mkR 57344 57345; mkR 63743 63744; mkR 983040 983041; mkR 1048573 1048574; mkR 1048576 1048577; mkR 1114109 1114110].
(** unicode_data.h 4: s_RangeLm *)
Definition range_Lm : list range := [
  mkR 688 706; mkR 710 722; mkR 736 741; mkR 748 749; mkR 750 751; mkR 884 885; mkR 890 891; mkR 1369 1370;
  mkR 1600 1601; mkR 1765 1767; mkR 2036 2038; mkR 2042 2043; mkR 2074 2075; mkR 2084 2085; mkR 2088 2089; mkR 2417 2418;
  mkR 3654 3655; mkR 3782 3783; mkR 4348 4349; mkR 6103 6104; mkR 6211 6212; mkR 6823 6824; mkR 7288 7294; mkR 7468 7522;
  mkR 7544 7545; mkR 7579 7616; mkR 8305 8306; mkR 8319 8320; mkR 8336 8349; mkR 11389 11390; mkR 11631 11632; mkR 11823 11824;
  mkR 12293 12294; mkR 12337 12342; mkR 12347 12348; mkR 12445 12447; mkR 12540 12543; mkR 40981 40982; mkR 42232 42238; mkR 42508 42509;
  mkR 42623 42624; mkR 42775 42784; mkR 42864 42865; mkR 42888 42889; mkR 43471 43472; mkR 43632 43633; mkR 43741 43742; mkR 65392 65393;
  mkR 65438 65440].
(** unicode_data.h 5: s_RangePd *)
Definition range_Pd : list range := [
  mkR 45 46; mkR 1418 1419; mkR 1470 1471; mkR 5120 5121; mkR 6150 6151; mkR 8208 8214; mkR 11799 11800; mkR 11802 11803;
  mkR 12316 12317; mkR 12336 12337; mkR 12448 12449; mkR 65073 65075; mkR 65112 65113; mkR 65123 65124; mkR 65293 65294].
(** unicode_data.h 6: s_RangeSo *)
Definition range_So : list range := [
  mkR 166 168; mkR 169 170; mkR 174 175; mkR 176 177; mkR 182 183; mkR 1154 1155; mkR 1550 1552; mkR 1758 1759;
  mkR 1769 1770; mkR 1789 1791; mkR 2038 2039; mkR 2554 2555; mkR 2928 2929; mkR 3059 3065; mkR 3066 3067; mkR 3199 3200;
  mkR 3449 3450; mkR 3841 3844; mkR 3859 3864; mkR 3866 3872; mkR 3892 3893; mkR 3894 3895; mkR 3896 3897; mkR 4030 4038;
  mkR 4039 4045; mkR 4046 4048; mkR 4053 4057; mkR 4254 4256; mkR 4960 4961; mkR 5008 5018; mkR 6464 6465; mkR 6622 6656;
  mkR 7009 7019; mkR 7028 7037; mkR 8448 8450; mkR 8451 8455; mkR 8456 8458; mkR 8468 8469; mkR 8470 8472; mkR 8478 8484;
  mkR 8485 8486; mkR 8487 8488; mkR 8489 8490; mkR 8494 8495; mkR 8506 8508; mkR 8522 8523; mkR 8524 8526; mkR 8527 8528;
  mkR 8597 8602; mkR 8604 8608; mkR 8609 8611; mkR 8612 8614; mkR 8615 8622; mkR 8623 8654; mkR 8656 8658; mkR 8659 8660;
  mkR 8661 8692; mkR 8960 8968; mkR 8972 8992; mkR 8994 9001; mkR 9003 9084; mkR 9085 9115; mkR 9140 9180; mkR 9186 9204;
  mkR 9216 9255; mkR 9280 9291; mkR 9372 9450; mkR 9472 9655; mkR 9656 9665; mkR 9666 9720; mkR 9728 9839; mkR 9840 9984;
  mkR 9985 10088; mkR 10132 10176; mkR 10240 10496; mkR 11008 11056; mkR 11077 11079; mkR 11088 11098; mkR 11493 11499; mkR 11904 11930;
  mkR 11931 12020; mkR 12032 12246; mkR 12272 12284; mkR 12292 12293; mkR 12306 12308; mkR 12320 12321; mkR 12342 12344; mkR 12350 12352;
  mkR 12688 12690; mkR 12694 12704; mkR 12736 12772; mkR 12800 12831; mkR 12842 12881; mkR 12896 12928; mkR 12938 12977; mkR 12992 13055;
  mkR 13056 13312; mkR 19904 19968; mkR 42128 42183; mkR 43048 43052; mkR 43062 43064; mkR 43065 43066; mkR 43639 43642; mkR 65021 65022;
  mkR 65508 65509; mkR 65512 65513; mkR 65517 65519; mkR 65532 65534; mkR 65794 65795; mkR 65847 65856; mkR 65913 65930; mkR 65936 65948;
  mkR 66000 66045; mkR 118784 119030; mkR 119040 119079; mkR 119081 119141; mkR 119146 119149; mkR 119171 119173; mkR 119180 119210; mkR 119214 119262;
  mkR 119296 119362; mkR 119365 119366; mkR 119552 119639; mkR 126976 127020; mkR 127024 127124; mkR 127136 127151; mkR 127153 127167; mkR 127169 127184;
  mkR 127185 127200; mkR 127248 127279; mkR 127280 127338; mkR 127344 127387; mkR 127462 127491; mkR 127504 127547; mkR 127552 127561; mkR 127568 127570;
  mkR 127744 127777; mkR 127792 127798; mkR 127799 127869; mkR 127872 127892; mkR 127904 127941; mkR 127942 127947; mkR 127968 127985; mkR 128000 128063;
  mkR 128064 128065; mkR 128066 128248; mkR 128249 128253; mkR 128256 128318; mkR 128336 128360; mkR 128507 128512; mkR 128513 128529; mkR 128530 128533;
  mkR 128534 128535; mkR 128536 128537; mkR 128538 128539; mkR 128540 128543; mkR 128544 128550; mkR 128552 128556; mkR 128557 128558; mkR 128560 128564;
  mkR 128565 128577; mkR 128581 128592; mkR 128640 128710; mkR 128768 128884].
(** unicode_data.h 7: s_RangeNd *)
Definition range_Nd : list range := [
  mkR 48 58; mkR 1632 1642; mkR 1776 1786; mkR 1984 1994; mkR 2406 2416; mkR 2534 2544; mkR 2662 2672; mkR 2790 2800;
  mkR 2918 2928; mkR 3046 3056; mkR 3174 3184; mkR 3302 3312; mkR 3430 3440; mkR 3664 3674; mkR 3792 3802; mkR 3872 3882;
  mkR 4160 4170; mkR 4240 4250; mkR 6112 6122; mkR 6160 6170; mkR 6470 6480; mkR 6608 6618; mkR 6784 6794; mkR 6800 6810;
  mkR 6992 7002; mkR 7088 7098; mkR 7232 7242; mkR 7248 7258; mkR 42528 42538; mkR 43216 43226; mkR 43264 43274; mkR 43472 43482;
  mkR 43600 43610; mkR 44016 44026; mkR 65296 65306; mkR 66720 66730; mkR 69734 69744; mkR 120782 120832].
(** unicode_data.h 8: s_RangeZp *)
Definition range_Zp : list range := [
  mkR 8233 8234].
(** unicode_data.h 9: s_RangePo *)
Definition range_Po : list range := [
  mkR 33 36; mkR 37 40; mkR 42 43; mkR 44 45; mkR 46 48; mkR 58 60; mkR 63 65; mkR 92 93;
  mkR 161 162; mkR 183 184; mkR 191 192; mkR 894 895; mkR 903 904; mkR 1370 1376; mkR 1417 1418; mkR 1472 1473;
  mkR 1475 1476; mkR 1478 1479; mkR 1523 1525; mkR 1545 1547; mkR 1548 1550; mkR 1563 1564; mkR 1566 1568; mkR 1642 1646;
  mkR 1748 1749; mkR 1792 1806; mkR 2039 2042; mkR 2096 2111; mkR 2142 2143; mkR 2404 2406; mkR 2416 2417; mkR 3572 3573;
  mkR 3663 3664; mkR 3674 3676; mkR 3844 3859; mkR 3973 3974; mkR 4048 4053; mkR 4057 4059; mkR 4170 4176; mkR 4347 4348;
  mkR 4961 4969; mkR 5741 5743; mkR 5867 5870; mkR 5941 5943; mkR 6100 6103; mkR 6104 6107; mkR 6144 6150; mkR 6151 6155;
  mkR 6468 6470; mkR 6686 6688; mkR 6816 6823; mkR 6824 6830; mkR 7002 7009; mkR 7164 7168; mkR 7227 7232; mkR 7294 7296;
  mkR 7379 7380; mkR 8214 8216; mkR 8224 8232; mkR 8240 8249; mkR 8251 8255; mkR 8257 8260; mkR 8263 8274; mkR 8275 8276;
  mkR 8277 8287; mkR 11513 11517; mkR 11518 11520; mkR 11632 11633; mkR 11776 11778; mkR 11782 11785; mkR 11787 11788; mkR 11790 11799;
  mkR 11800 11802; mkR 11803 11804; mkR 11806 11808; mkR 11818 11823; mkR 11824 11826; mkR 12289 12292; mkR 12349 12350; mkR 12539 12540;
  mkR 42238 42240; mkR 42509 42512; mkR 42611 42612; mkR 42622 42623; mkR 42738 42744; mkR 43124 43128; mkR 43214 43216; mkR 43256 43259;
  mkR 43310 43312; mkR 43359 43360; mkR 43457 43470; mkR 43486 43488; mkR 43612 43616; mkR 43742 43744; mkR 44011 44012; mkR 65040 65047;
  mkR 65049 65050; mkR 65072 65073; mkR 65093 65095; mkR 65097 65101; mkR 65104 65107; mkR 65108 65112; mkR 65119 65122; mkR 65128 65129;
  mkR 65130 65132; mkR 65281 65284; mkR 65285 65288; mkR 65290 65291; mkR 65292 65293; mkR 65294 65296; mkR 65306 65308; mkR 65311 65313;
  mkR 65340 65341; mkR 65377 65378; mkR 65380 65382; mkR 65792 65794; mkR 66463 66464; mkR 66512 66513; mkR 67671 67672; mkR 67871 67872;
  mkR 67903 67904; mkR 68176 68185; mkR 68223 68224; mkR 68409 68416; mkR 69703 69710; mkR 69819 69821; mkR 69822 69826; mkR 74864 74868].
(** unicode_data.h 10: s_RangeNo *)
Definition range_No : list range := [
  mkR 178 180; mkR 185 186; mkR 188 191; mkR 2548 2554; mkR 2930 2936; mkR 3056 3059; mkR 3192 3199; mkR 3440 3446;
  mkR 3882 3892; mkR 4969 4989; mkR 6128 6138; mkR 6618 6619; mkR 8304 8305; mkR 8308 8314; mkR 8320 8330; mkR 8528 8544;
  mkR 8585 8586; mkR 9312 9372; mkR 9450 9472; mkR 10102 10132; mkR 11517 11518; mkR 12690 12694; mkR 12832 12842; mkR 12881 12896;
  mkR 12928 12938; mkR 12977 12992; mkR 43056 43062; mkR 65799 65844; mkR 65909 65913; mkR 65930 65931; mkR 66336 66340; mkR 67672 67680;
  mkR 67862 67868; mkR 68160 68168; mkR 68221 68223; mkR 68440 68448; mkR 68472 68480; mkR 69216 69247; mkR 69714 69734; mkR 119648 119666;
  mkR 127232 127243].
(** unicode_data.h 11: s_RangeMn *)
Definition range_Mn : list range := [
  mkR 768 880; mkR 1155 1160; mkR 1425 1470; mkR 1471 1472; mkR 1473 1475; mkR 1476 1478; mkR 1479 1480; mkR 1552 1563;
  mkR 1611 1632; mkR 1648 1649; mkR 1750 1757; mkR 1759 1765; mkR 1767 1769; mkR 1770 1774; mkR 1809 1810; mkR 1840 1867;
  mkR 1958 1969; mkR 2027 2036; mkR 2070 2074; mkR 2075 2084; mkR 2085 2088; mkR 2089 2094; mkR 2137 2140; mkR 2304 2307;
  mkR 2362 2363; mkR 2364 2365; mkR 2369 2377; mkR 2381 2382; mkR 2385 2392; mkR 2402 2404; mkR 2433 2434; mkR 2492 2493;
  mkR 2497 2501; mkR 2509 2510; mkR 2530 2532; mkR 2561 2563; mkR 2620 2621; mkR 2625 2627; mkR 2631 2633; mkR 2635 2638;
  mkR 2641 2642; mkR 2672 2674; mkR 2677 2678; mkR 2689 2691; mkR 2748 2749; mkR 2753 2758; mkR 2759 2761; mkR 2765 2766;
  mkR 2786 2788; mkR 2817 2818; mkR 2876 2877; mkR 2879 2880; mkR 2881 2885; mkR 2893 2894; mkR 2902 2903; mkR 2914 2916;
  mkR 2946 2947; mkR 3008 3009; mkR 3021 3022; mkR 3134 3137; mkR 3142 3145; mkR 3146 3150; mkR 3157 3159; mkR 3170 3172;
  mkR 3260 3261; mkR 3263 3264; mkR 3270 3271; mkR 3276 3278; mkR 3298 3300; mkR 3393 3397; mkR 3405 3406; mkR 3426 3428;
  mkR 3530 3531; mkR 3538 3541; mkR 3542 3543; mkR 3633 3634; mkR 3636 3643; mkR 3655 3663; mkR 3761 3762; mkR 3764 3770;
  mkR 3771 3773; mkR 3784 3790; mkR 3864 3866; mkR 3893 3894; mkR 3895 3896; mkR 3897 3898; mkR 3953 3967; mkR 3968 3973;
  mkR 3974 3976; mkR 3981 3992; mkR 3993 4029; mkR 4038 4039; mkR 4141 4145; mkR 4146 4152; mkR 4153 4155; mkR 4157 4159;
  mkR 4184 4186; mkR 4190 4193; mkR 4209 4213; mkR 4226 4227; mkR 4229 4231; mkR 4237 4238; mkR 4253 4254; mkR 4957 4960;
  mkR 5906 5909; mkR 5938 5941; mkR 5970 5972; mkR 6002 6004; mkR 6071 6078; mkR 6086 6087; mkR 6089 6100; mkR 6109 6110;
  mkR 6155 6158; mkR 6313 6314; mkR 6432 6435; mkR 6439 6441; mkR 6450 6451; mkR 6457 6460; mkR 6679 6681; mkR 6742 6743;
  mkR 6744 6751; mkR 6752 6753; mkR 6754 6755; mkR 6757 6765; mkR 6771 6781; mkR 6783 6784; mkR 6912 6916; mkR 6964 6965;
  mkR 6966 6971; mkR 6972 6973; mkR 6978 6979; mkR 7019 7028; mkR 7040 7042; mkR 7074 7078; mkR 7080 7082; mkR 7142 7143;
  mkR 7144 7146; mkR 7149 7150; mkR 7151 7154; mkR 7212 7220; mkR 7222 7224; mkR 7376 7379; mkR 7380 7393; mkR 7394 7401;
  mkR 7405 7406; mkR 7616 7655; mkR 7676 7680; mkR 8400 8413; mkR 8417 8418; mkR 8421 8433; mkR 11503 11506; mkR 11647 11648;
  mkR 11744 11776; mkR 12330 12336; mkR 12441 12443; mkR 42607 42608; mkR 42620 42622; mkR 42736 42738; mkR 43010 43011; mkR 43014 43015;
  mkR 43019 43020; mkR 43045 43047; mkR 43204 43205; mkR 43232 43250; mkR 43302 43310; mkR 43335 43346; mkR 43392 43395; mkR 43443 43444;
  mkR 43446 43450; mkR 43452 43453; mkR 43561 43567; mkR 43569 43571; mkR 43573 43575; mkR 43587 43588; mkR 43596 43597; mkR 43696 43697;
  mkR 43698 43701; mkR 43703 43705; mkR 43710 43712; mkR 43713 43714; mkR 44005 44006; mkR 44008 44009; mkR 44013 44014; mkR 64286 64287;
  mkR 65024 65040; mkR 65056 65063; mkR 66045 66046; mkR 68097 68100; mkR 68101 68103; mkR 68108 68112; mkR 68152 68155; mkR 68159 68160;
  mkR 69633 69634; mkR 69688 69703; mkR 69760 69762; mkR 69811 69815; mkR 69817 69819; mkR 119143 119146; mkR 119163 119171; mkR 119173 119180;
  mkR 119210 119214; mkR 119362 119365; mkR 917760 918000].
(** unicode_data.h 12: s_RangeCf *)
Definition range_Cf : list range := [
  mkR 173 174; mkR 1536 1540; mkR 1757 1758; mkR 1807 1808; mkR 6068 6070; mkR 8203 8208; mkR 8234 8239; mkR 8288 8293;
  mkR 8298 8304; mkR 65279 65280; mkR 65529 65532; mkR 69821 69822; mkR 119155 119163; mkR 917505 917506; mkR 917536 917632].
(** unicode_data.h 13: s_RangeZs *)
Definition range_Zs : list range := [
  mkR 32 33; mkR 160 161; mkR 5760 5761; mkR 6158 6159; mkR 8192 8203; mkR 8239 8240; mkR 8287 8288; mkR 12288 12289].
(** unicode_data.h 14: s_RangePe *)
Definition range_Pe : list range := [
  mkR 41 42; mkR 93 94; mkR 125 126; mkR 3899 3900; mkR 3901 3902; mkR 5788 5789; mkR 8262 8263; mkR 8318 8319;
  mkR 8334 8335; mkR 9002 9003; mkR 10089 10090; mkR 10091 10092; mkR 10093 10094; mkR 10095 10096; mkR 10097 10098; mkR 10099 10100;
  mkR 10101 10102; mkR 10182 10183; mkR 10215 10216; mkR 10217 10218; mkR 10219 10220; mkR 10221 10222; mkR 10223 10224; mkR 10628 10629;
  mkR 10630 10631; mkR 10632 10633; mkR 10634 10635; mkR 10636 10637; mkR 10638 10639; mkR 10640 10641; mkR 10642 10643; mkR 10644 10645;
  mkR 10646 10647; mkR 10648 10649; mkR 10713 10714; mkR 10715 10716; mkR 10749 10750; mkR 11811 11812; mkR 11813 11814; mkR 11815 11816;
  mkR 11817 11818; mkR 12297 12298; mkR 12299 12300; mkR 12301 12302; mkR 12303 12304; mkR 12305 12306; mkR 12309 12310; mkR 12311 12312;
  mkR 12313 12314; mkR 12315 12316; mkR 12318 12320; mkR 64831 64832; mkR 65048 65049; mkR 65078 65079; mkR 65080 65081; mkR 65082 65083;
  mkR 65084 65085; mkR 65086 65087; mkR 65088 65089; mkR 65090 65091; mkR 65092 65093; mkR 65096 65097; mkR 65114 65115; mkR 65116 65117;
  mkR 65118 65119; mkR 65289 65290; mkR 65341 65342; mkR 65373 65374; mkR 65376 65377; mkR 65379 65380].
(** unicode_data.h 15: s_RangePf *)
Definition range_Pf : list range := [
  mkR 187 188; mkR 8217 8218; mkR 8221 8222; mkR 8250 8251; mkR 11779 11780; mkR 11781 11782; mkR 11786 11787; mkR 11789 11790;
  mkR 11805 11806; mkR 11809 11810].
(** unicode_data.h 16: s_RangePs *)
Definition range_Ps : list range := [
  mkR 40 41; mkR 91 92; mkR 123 124; mkR 3898 3899; mkR 3900 3901; mkR 5787 5788; mkR 8218 8219; mkR 8222 8223;
  mkR 8261 8262; mkR 8317 8318; mkR 8333 8334; mkR 9001 9002; mkR 10088 10089; mkR 10090 10091; mkR 10092 10093; mkR 10094 10095;
  mkR 10096 10097; mkR 10098 10099; mkR 10100 10101; mkR 10181 10182; mkR 10214 10215; mkR 10216 10217; mkR 10218 10219; mkR 10220 10221;
  mkR 10222 10223; mkR 10627 10628; mkR 10629 10630; mkR 10631 10632; mkR 10633 10634; mkR 10635 10636; mkR 10637 10638; mkR 10639 10640;
  mkR 10641 10642; mkR 10643 10644; mkR 10645 10646; mkR 10647 10648; mkR 10712 10713; mkR 10714 10715; mkR 10748 10749; mkR 11810 11811;
  mkR 11812 11813; mkR 11814 11815; mkR 11816 11817; mkR 12296 12297; mkR 12298 12299; mkR 12300 12301; mkR 12302 12303; mkR 12304 12305;
  mkR 12308 12309; mkR 12310 12311; mkR 12312 12313; mkR 12314 12315; mkR 12317 12318; mkR 64830 64831; mkR 65047 65048; mkR 65077 65078;
  mkR 65079 65080; mkR 65081 65082; mkR 65083 65084; mkR 65085 65086; mkR 65087 65088; mkR 65089 65090; mkR 65091 65092; mkR 65095 65096;
  mkR 65113 65114; mkR 65115 65116; mkR 65117 65118; mkR 65288 65289; mkR 65339 65340; mkR 65371 65372; mkR 65375 65376; mkR 65378 65379].
(** unicode_data.h 17: s_RangeCc *)
Definition range_Cc : list range := [
  mkR 0 32; mkR 127 160].
(** unicode_data.h 18: s_RangeLu *)
Definition range_Lu : list range := [
  mkR 65 91; mkR 192 215; mkR 216 223; mkR 256 257; mkR 258 259; mkR 260 261; mkR 262 263; mkR 264 265;
  mkR 266 267; mkR 268 269; mkR 270 271; mkR 272 273; mkR 274 275; mkR 276 277; mkR 278 279; mkR 280 281;
  mkR 282 283; mkR 284 285; mkR 286 287; mkR 288 289; mkR 290 291; mkR 292 293; mkR 294 295; mkR 296 297;
  mkR 298 299; mkR 300 301; mkR 302 303; mkR 304 305; mkR 306 307; mkR 308 309; mkR 310 311; mkR 313 314;
  mkR 315 316; mkR 317 318; mkR 319 320; mkR 321 322; mkR 323 324; mkR 325 326; mkR 327 328; mkR 330 331;
  mkR 332 333; mkR 334 335; mkR 336 337; mkR 338 339; mkR 340 341; mkR 342 343; mkR 344 345; mkR 346 347;
  mkR 348 349; mkR 350 351; mkR 352 353; mkR 354 355; mkR 356 357; mkR 358 359; mkR 360 361; mkR 362 363;
  mkR 364 365; mkR 366 367; mkR 368 369; mkR 370 371; mkR 372 373; mkR 374 375; mkR 376 378; mkR 379 380;
  mkR 381 382; mkR 385 387; mkR 388 389; mkR 390 392; mkR 393 396; mkR 398 402; mkR 403 405; mkR 406 409;
  mkR 412 414; mkR 415 417; mkR 418 419; mkR 420 421; mkR 422 424; mkR 425 426; mkR 428 429; mkR 430 432;
  mkR 433 436; mkR 437 438; mkR 439 441; mkR 444 445; mkR 452 453; mkR 455 456; mkR 458 459; mkR 461 462;
  mkR 463 464; mkR 465 466; mkR 467 468; mkR 469 470; mkR 471 472; mkR 473 474; mkR 475 476; mkR 478 479;
  mkR 480 481; mkR 482 483; mkR 484 485; mkR 486 487; mkR 488 489; mkR 490 491; mkR 492 493; mkR 494 495;
  mkR 497 498; mkR 500 501; mkR 502 505; mkR 506 507; mkR 508 509; mkR 510 511; mkR 512 513; mkR 514 515;
  mkR 516 517; mkR 518 519; mkR 520 521; mkR 522 523; mkR 524 525; mkR 526 527; mkR 528 529; mkR 530 531;
  mkR 532 533; mkR 534 535; mkR 536 537; mkR 538 539; mkR 540 541; mkR 542 543; mkR 544 545; mkR 546 547;
  mkR 548 549; mkR 550 551; mkR 552 553; mkR 554 555; mkR 556 557; mkR 558 559; mkR 560 561; mkR 562 563;
  mkR 570 572; mkR 573 575; mkR 577 578; mkR 579 583; mkR 584 585; mkR 586 587; mkR 588 589; mkR 590 591;
  mkR 880 881; mkR 882 883; mkR 886 887; mkR 902 903; mkR 904 907; mkR 908 909; mkR 910 912; mkR 913 930;
  mkR 931 940; mkR 975 976; mkR 978 981; mkR 984 985; mkR 986 987; mkR 988 989; mkR 990 991; mkR 992 993;
  mkR 994 995; mkR 996 997; mkR 998 999; mkR 1000 1001; mkR 1002 1003; mkR 1004 1005; mkR 1006 1007; mkR 1012 1013;
  mkR 1015 1016; mkR 1017 1019; mkR 1021 1072; mkR 1120 1121; mkR 1122 1123; mkR 1124 1125; mkR 1126 1127; mkR 1128 1129;
  mkR 1130 1131; mkR 1132 1133; mkR 1134 1135; mkR 1136 1137; mkR 1138 1139; mkR 1140 1141; mkR 1142 1143; mkR 1144 1145;
  mkR 1146 1147; mkR 1148 1149; mkR 1150 1151; mkR 1152 1153; mkR 1162 1163; mkR 1164 1165; mkR 1166 1167; mkR 1168 1169;
  mkR 1170 1171; mkR 1172 1173; mkR 1174 1175; mkR 1176 1177; mkR 1178 1179; mkR 1180 1181; mkR 1182 1183; mkR 1184 1185;
  mkR 1186 1187; mkR 1188 1189; mkR 1190 1191; mkR 1192 1193; mkR 1194 1195; mkR 1196 1197; mkR 1198 1199; mkR 1200 1201;
  mkR 1202 1203; mkR 1204 1205; mkR 1206 1207; mkR 1208 1209; mkR 1210 1211; mkR 1212 1213; mkR 1214 1215; mkR 1216 1218;
  mkR 1219 1220; mkR 1221 1222; mkR 1223 1224; mkR 1225 1226; mkR 1227 1228; mkR 1229 1230; mkR 1232 1233; mkR 1234 1235;
  mkR 1236 1237; mkR 1238 1239; mkR 1240 1241; mkR 1242 1243; mkR 1244 1245; mkR 1246 1247; mkR 1248 1249; mkR 1250 1251;
  mkR 1252 1253; mkR 1254 1255; mkR 1256 1257; mkR 1258 1259; mkR 1260 1261; mkR 1262 1263; mkR 1264 1265; mkR 1266 1267;
  mkR 1268 1269; mkR 1270 1271; mkR 1272 1273; mkR 1274 1275; mkR 1276 1277; mkR 1278 1279; mkR 1280 1281; mkR 1282 1283;
  mkR 1284 1285; mkR 1286 1287; mkR 1288 1289; mkR 1290 1291; mkR 1292 1293; mkR 1294 1295; mkR 1296 1297; mkR 1298 1299;
  mkR 1300 1301; mkR 1302 1303; mkR 1304 1305; mkR 1306 1307; mkR 1308 1309; mkR 1310 1311; mkR 1312 1313; mkR 1314 1315;
  mkR 1316 1317; mkR 1318 1319; mkR 1329 1367; mkR 4256 4294; mkR 7680 7681; mkR 7682 7683; mkR 7684 7685; mkR 7686 7687;
  mkR 7688 7689; mkR 7690 7691; mkR 7692 7693; mkR 7694 7695; mkR 7696 7697; mkR 7698 7699; mkR 7700 7701; mkR 7702 7703;
  mkR 7704 7705; mkR 7706 7707; mkR 7708 7709; mkR 7710 7711; mkR 7712 7713; mkR 7714 7715; mkR 7716 7717; mkR 7718 7719;
  mkR 7720 7721; mkR 7722 7723; mkR 7724 7725; mkR 7726 7727; mkR 7728 7729; mkR 7730 7731; mkR 7732 7733; mkR 7734 7735;
  mkR 7736 7737; mkR 7738 7739; mkR 7740 7741; mkR 7742 7743; mkR 7744 7745; mkR 7746 7747; mkR 7748 7749; mkR 7750 7751;
  mkR 7752 7753; mkR 7754 7755; mkR 7756 7757; mkR 7758 7759; mkR 7760 7761; mkR 7762 7763; mkR 7764 7765; mkR 7766 7767;
  mkR 7768 7769; mkR 7770 7771; mkR 7772 7773; mkR 7774 7775; mkR 7776 7777; mkR 7778 7779; mkR 7780 7781; mkR 7782 7783;
  mkR 7784 7785; mkR 7786 7787; mkR 7788 7789; mkR 7790 7791; mkR 7792 7793; mkR 7794 7795; mkR 7796 7797; mkR 7798 7799;
  mkR 7800 7801; mkR 7802 7803; mkR 7804 7805; mkR 7806 7807; mkR 7808 7809; mkR 7810 7811; mkR 7812 7813; mkR 7814 7815;
  mkR 7816 7817; mkR 7818 7819; mkR 7820 7821; mkR 7822 7823; mkR 7824 7825; mkR 7826 7827; mkR 7828 7829; mkR 7838 7839;
  mkR 7840 7841; mkR 7842 7843; mkR 7844 7845; mkR 7846 7847; mkR 7848 7849; mkR 7850 7851; mkR 7852 7853; mkR 7854 7855;
  mkR 7856 7857; mkR 7858 7859; mkR 7860 7861; mkR 7862 7863; mkR 7864 7865; mkR 7866 7867; mkR 7868 7869; mkR 7870 7871;
  mkR 7872 7873; mkR 7874 7875; mkR 7876 7877; mkR 7878 7879; mkR 7880 7881; mkR 7882 7883; mkR 7884 7885; mkR 7886 7887;
  mkR 7888 7889; mkR 7890 7891; mkR 7892 7893; mkR 7894 7895; mkR 7896 7897; mkR 7898 7899; mkR 7900 7901; mkR 7902 7903;
  mkR 7904 7905; mkR 7906 7907; mkR 7908 7909; mkR 7910 7911; mkR 7912 7913; mkR 7914 7915; mkR 7916 7917; mkR 7918 7919;
  mkR 7920 7921; mkR 7922 7923; mkR 7924 7925; mkR 7926 7927; mkR 7928 7929; mkR 7930 7931; mkR 7932 7933; mkR 7934 7935;
  mkR 7944 7952; mkR 7960 7966; mkR 7976 7984; mkR 7992 8000; mkR 8008 8014; mkR 8025 8026; mkR 8027 8028; mkR 8029 8030;
  mkR 8031 8032; mkR 8040 8048; mkR 8120 8124; mkR 8136 8140; mkR 8152 8156; mkR 8168 8173; mkR 8184 8188; mkR 8450 8451;
  mkR 8455 8456; mkR 8459 8462; mkR 8464 8467; mkR 8469 8470; mkR 8473 8478; mkR 8484 8485; mkR 8486 8487; mkR 8488 8489;
  mkR 8490 8494; mkR 8496 8500; mkR 8510 8512; mkR 8517 8518; mkR 8579 8580; mkR 11264 11311; mkR 11360 11361; mkR 11362 11365;
  mkR 11367 11368; mkR 11369 11370; mkR 11371 11372; mkR 11373 11377; mkR 11378 11379; mkR 11381 11382; mkR 11390 11393; mkR 11394 11395;
  mkR 11396 11397; mkR 11398 11399; mkR 11400 11401; mkR 11402 11403; mkR 11404 11405; mkR 11406 11407; mkR 11408 11409; mkR 11410 11411;
  mkR 11412 11413; mkR 11414 11415; mkR 11416 11417; mkR 11418 11419; mkR 11420 11421; mkR 11422 11423; mkR 11424 11425; mkR 11426 11427;
  mkR 11428 11429; mkR 11430 11431; mkR 11432 11433; mkR 11434 11435; mkR 11436 11437; mkR 11438 11439; mkR 11440 11441; mkR 11442 11443;
  mkR 11444 11445; mkR 11446 11447; mkR 11448 11449; mkR 11450 11451; mkR 11452 11453; mkR 11454 11455; mkR 11456 11457; mkR 11458 11459;
  mkR 11460 11461; mkR 11462 11463; mkR 11464 11465; mkR 11466 11467; mkR 11468 11469; mkR 11470 11471; mkR 11472 11473; mkR 11474 11475;
  mkR 11476 11477; mkR 11478 11479; mkR 11480 11481; mkR 11482 11483; mkR 11484 11485; mkR 11486 11487; mkR 11488 11489; mkR 11490 11491;
  mkR 11499 11500; mkR 11501 11502; mkR 42560 42561; mkR 42562 42563; mkR 42564 42565; mkR 42566 42567; mkR 42568 42569; mkR 42570 42571;
  mkR 42572 42573; mkR 42574 42575; mkR 42576 42577; mkR 42578 42579; mkR 42580 42581; mkR 42582 42583; mkR 42584 42585; mkR 42586 42587;
  mkR 42588 42589; mkR 42590 42591; mkR 42592 42593; mkR 42594 42595; mkR 42596 42597; mkR 42598 42599; mkR 42600 42601; mkR 42602 42603;
  mkR 42604 42605; mkR 42624 42625; mkR 42626 42627; mkR 42628 42629; mkR 42630 42631; mkR 42632 42633; mkR 42634 42635; mkR 42636 42637;
  mkR 42638 42639; mkR 42640 42641; mkR 42642 42643; mkR 42644 42645; mkR 42646 42647; mkR 42786 42787; mkR 42788 42789; mkR 42790 42791;
  mkR 42792 42793; mkR 42794 42795; mkR 42796 42797; mkR 42798 42799; mkR 42802 42803; mkR 42804 42805; mkR 42806 42807; mkR 42808 42809;
  mkR 42810 42811; mkR 42812 42813; mkR 42814 42815; mkR 42816 42817; mkR 42818 42819; mkR 42820 42821; mkR 42822 42823; mkR 42824 42825;
  mkR 42826 42827; mkR 42828 42829; mkR 42830 42831; mkR 42832 42833; mkR 42834 42835; mkR 42836 42837; mkR 42838 42839; mkR 42840 42841;
  mkR 42842 42843; mkR 42844 42845; mkR 42846 42847; mkR 42848 42849; mkR 42850 42851; mkR 42852 42853; mkR 42854 42855; mkR 42856 42857;
  mkR 42858 42859; mkR 42860 42861; mkR 42862 42863; mkR 42873 42874; mkR 42875 42876; mkR 42877 42879; mkR 42880 42881; mkR 42882 42883;
  mkR 42884 42885; mkR 42886 42887; mkR 42891 42892; mkR 42893 42894; mkR 42896 42897; mkR 42912 42913; mkR 42914 42915; mkR 42916 42917;
  mkR 42918 42919; mkR 42920 42921; mkR 65313 65339; mkR 66560 66600; mkR 119808 119834; mkR 119860 119886; mkR 119912 119938; mkR 119964 119965;
  mkR 119966 119968; mkR 119970 119971; mkR 119973 119975; mkR 119977 119981; mkR 119982 119990; mkR 120016 120042; mkR 120068 120070; mkR 120071 120075;
  mkR 120077 120085; mkR 120086 120093; mkR 120120 120122; mkR 120123 120127; mkR 120128 120133; mkR 120134 120135; mkR 120138 120145; mkR 120172 120198;
  mkR 120224 120250; mkR 120276 120302; mkR 120328 120354; mkR 120380 120406; mkR 120432 120458; mkR 120488 120513; mkR 120546 120571; mkR 120604 120629;
  mkR 120662 120687; mkR 120720 120745; mkR 120778 120779].
(** unicode_data.h 19: s_RangeMc *)
Definition range_Mc : list range := [
  mkR 2307 2308; mkR 2363 2364; mkR 2366 2369; mkR 2377 2381; mkR 2382 2384; mkR 2434 2436; mkR 2494 2497; mkR 2503 2505;
  mkR 2507 2509; mkR 2519 2520; mkR 2563 2564; mkR 2622 2625; mkR 2691 2692; mkR 2750 2753; mkR 2761 2762; mkR 2763 2765;
  mkR 2818 2820; mkR 2878 2879; mkR 2880 2881; mkR 2887 2889; mkR 2891 2893; mkR 2903 2904; mkR 3006 3008; mkR 3009 3011;
  mkR 3014 3017; mkR 3018 3021; mkR 3031 3032; mkR 3073 3076; mkR 3137 3141; mkR 3202 3204; mkR 3262 3263; mkR 3264 3269;
  mkR 3271 3273; mkR 3274 3276; mkR 3285 3287; mkR 3330 3332; mkR 3390 3393; mkR 3398 3401; mkR 3402 3405; mkR 3415 3416;
  mkR 3458 3460; mkR 3535 3538; mkR 3544 3552; mkR 3570 3572; mkR 3902 3904; mkR 3967 3968; mkR 4139 4141; mkR 4145 4146;
  mkR 4152 4153; mkR 4155 4157; mkR 4182 4184; mkR 4194 4197; mkR 4199 4206; mkR 4227 4229; mkR 4231 4237; mkR 4239 4240;
  mkR 4250 4253; mkR 6070 6071; mkR 6078 6086; mkR 6087 6089; mkR 6435 6439; mkR 6441 6444; mkR 6448 6450; mkR 6451 6457;
  mkR 6576 6593; mkR 6600 6602; mkR 6681 6684; mkR 6741 6742; mkR 6743 6744; mkR 6753 6754; mkR 6755 6757; mkR 6765 6771;
  mkR 6916 6917; mkR 6965 6966; mkR 6971 6972; mkR 6973 6978; mkR 6979 6981; mkR 7042 7043; mkR 7073 7074; mkR 7078 7080;
  mkR 7082 7083; mkR 7143 7144; mkR 7146 7149; mkR 7150 7151; mkR 7154 7156; mkR 7204 7212; mkR 7220 7222; mkR 7393 7394;
  mkR 7410 7411; mkR 43043 43045; mkR 43047 43048; mkR 43136 43138; mkR 43188 43204; mkR 43346 43348; mkR 43395 43396; mkR 43444 43446;
  mkR 43450 43452; mkR 43453 43457; mkR 43567 43569; mkR 43571 43573; mkR 43597 43598; mkR 43643 43644; mkR 44003 44005; mkR 44006 44008;
  mkR 44009 44011; mkR 44012 44013; mkR 69632 69633; mkR 69634 69635; mkR 69762 69763; mkR 69808 69811; mkR 69815 69817; mkR 119141 119143;
  mkR 119149 119155].
(** unicode_data.h 20: s_RangeSm *)
Definition range_Sm : list range := [
  mkR 43 44; mkR 60 63; mkR 124 125; mkR 126 127; mkR 172 173; mkR 177 178; mkR 215 216; mkR 247 248;
  mkR 1014 1015; mkR 1542 1545; mkR 8260 8261; mkR 8274 8275; mkR 8314 8317; mkR 8330 8333; mkR 8472 8473; mkR 8512 8517;
  mkR 8523 8524; mkR 8592 8597; mkR 8602 8604; mkR 8608 8609; mkR 8611 8612; mkR 8614 8615; mkR 8622 8623; mkR 8654 8656;
  mkR 8658 8659; mkR 8660 8661; mkR 8692 8960; mkR 8968 8972; mkR 8992 8994; mkR 9084 9085; mkR 9115 9140; mkR 9180 9186;
  mkR 9655 9656; mkR 9665 9666; mkR 9720 9728; mkR 9839 9840; mkR 10176 10181; mkR 10183 10187; mkR 10188 10189; mkR 10190 10214;
  mkR 10224 10240; mkR 10496 10627; mkR 10649 10712; mkR 10716 10748; mkR 10750 11008; mkR 11056 11077; mkR 11079 11085; mkR 64297 64298;
  mkR 65122 65123; mkR 65124 65127; mkR 65291 65292; mkR 65308 65311; mkR 65372 65373; mkR 65374 65375; mkR 65506 65507; mkR 65513 65517;
  mkR 120513 120514; mkR 120539 120540; mkR 120571 120572; mkR 120597 120598; mkR 120629 120630; mkR 120655 120656; mkR 120687 120688; mkR 120713 120714;
  mkR 120745 120746; mkR 120771 120772].
(** unicode_data.h 21: s_RangeCs *)
Definition range_Cs : list range := [
  mkR 55296 55297; mkR 56191 56193; mkR 56319 56321; mkR 57343 57344].
(** unicode_data.h 22: s_RangeLt *)
Definition range_Lt : list range := [
  mkR 453 454; mkR 456 457; mkR 459 460; mkR 498 499; mkR 8072 8080; mkR 8088 8096; mkR 8104 8112; mkR 8124 8125;
  mkR 8140 8141; mkR 8188 8189].
(** unicode_data.h 23: s_RangePc *)
Definition range_Pc : list range := [
  mkR 95 96; mkR 8255 8257; mkR 8276 8277; mkR 65075 65077; mkR 65101 65104; mkR 65343 65344].
(** unicode_data.h 24: s_RangeNl *)
Definition range_Nl : list range := [
  mkR 5870 5873; mkR 8544 8579; mkR 8581 8585; mkR 12295 12296; mkR 12321 12330; mkR 12344 12347; mkR 42726 42736; mkR 65856 65909;
  mkR 66369 66370; mkR 66378 66379; mkR 66513 66518; mkR 74752 74851].
(** unicode_data.h 25: s_RangeLo *)
Definition range_Lo : list range := [
  mkR 443 444; mkR 448 452; mkR 660 661; mkR 1488 1515; mkR 1520 1523; mkR 1568 1600; mkR 1601 1611; mkR 1646 1648;
  mkR 1649 1748; mkR 1749 1750; mkR 1774 1776; mkR 1786 1789; mkR 1791 1792; mkR 1808 1809; mkR 1810 1840; mkR 1869 1958;
  mkR 1969 1970; mkR 1994 2027; mkR 2048 2070; mkR 2112 2137; mkR 2308 2362; mkR 2365 2366; mkR 2384 2385; mkR 2392 2402;
  mkR 2418 2424; mkR 2425 2432; mkR 2437 2445; mkR 2447 2449; mkR 2451 2473; mkR 2474 2481; mkR 2482 2483; mkR 2486 2490;
  mkR 2493 2494; mkR 2510 2511; mkR 2524 2526; mkR 2527 2530; mkR 2544 2546; mkR 2565 2571; mkR 2575 2577; mkR 2579 2601;
  mkR 2602 2609; mkR 2610 2612; mkR 2613 2615; mkR 2616 2618; mkR 2649 2653; mkR 2654 2655; mkR 2674 2677; mkR 2693 2702;
  mkR 2703 2706; mkR 2707 2729; mkR 2730 2737; mkR 2738 2740; mkR 2741 2746; mkR 2749 2750; mkR 2768 2769; mkR 2784 2786;
  mkR 2821 2829; mkR 2831 2833; mkR 2835 2857; mkR 2858 2865; mkR 2866 2868; mkR 2869 2874; mkR 2877 2878; mkR 2908 2910;
  mkR 2911 2914; mkR 2929 2930; mkR 2947 2948; mkR 2949 2955; mkR 2958 2961; mkR 2962 2966; mkR 2969 2971; mkR 2972 2973;
  mkR 2974 2976; mkR 2979 2981; mkR 2984 2987; mkR 2990 3002; mkR 3024 3025; mkR 3077 3085; mkR 3086 3089; mkR 3090 3113;
  mkR 3114 3124; mkR 3125 3130; mkR 3133 3134; mkR 3160 3162; mkR 3168 3170; mkR 3205 3213; mkR 3214 3217; mkR 3218 3241;
  mkR 3242 3252; mkR 3253 3258; mkR 3261 3262; mkR 3294 3295; mkR 3296 3298; mkR 3313 3315; mkR 3333 3341; mkR 3342 3345;
  mkR 3346 3387; mkR 3389 3390; mkR 3406 3407; mkR 3424 3426; mkR 3450 3456; mkR 3461 3479; mkR 3482 3506; mkR 3507 3516;
  mkR 3517 3518; mkR 3520 3527; mkR 3585 3633; mkR 3634 3636; mkR 3648 3654; mkR 3713 3715; mkR 3716 3717; mkR 3719 3721;
  mkR 3722 3723; mkR 3725 3726; mkR 3732 3736; mkR 3737 3744; mkR 3745 3748; mkR 3749 3750; mkR 3751 3752; mkR 3754 3756;
  mkR 3757 3761; mkR 3762 3764; mkR 3773 3774; mkR 3776 3781; mkR 3804 3806; mkR 3840 3841; mkR 3904 3912; mkR 3913 3949;
  mkR 3976 3981; mkR 4096 4139; mkR 4159 4160; mkR 4176 4182; mkR 4186 4190; mkR 4193 4194; mkR 4197 4199; mkR 4206 4209;
  mkR 4213 4226; mkR 4238 4239; mkR 4304 4347; mkR 4352 4681; mkR 4682 4686; mkR 4688 4695; mkR 4696 4697; mkR 4698 4702;
  mkR 4704 4745; mkR 4746 4750; mkR 4752 4785; mkR 4786 4790; mkR 4792 4799; mkR 4800 4801; mkR 4802 4806; mkR 4808 4823;
  mkR 4824 4881; mkR 4882 4886; mkR 4888 4955; mkR 4992 5008; mkR 5024 5109; mkR 5121 5741; mkR 5743 5760; mkR 5761 5787;
  mkR 5792 5867; mkR 5888 5901; mkR 5902 5906; mkR 5920 5938; mkR 5952 5970; mkR 5984 5997; mkR 5998 6001; mkR 6016 6068;
  mkR 6108 6109; mkR 6176 6211; mkR 6212 6264; mkR 6272 6313; mkR 6314 6315; mkR 6320 6390; mkR 6400 6429; mkR 6480 6510;
  mkR 6512 6517; mkR 6528 6572; mkR 6593 6600; mkR 6656 6679; mkR 6688 6741; mkR 6917 6964; mkR 6981 6988; mkR 7043 7073;
  mkR 7086 7088; mkR 7104 7142; mkR 7168 7204; mkR 7245 7248; mkR 7258 7288; mkR 7401 7405; mkR 7406 7410; mkR 8501 8505;
  mkR 11568 11622; mkR 11648 11671; mkR 11680 11687; mkR 11688 11695; mkR 11696 11703; mkR 11704 11711; mkR 11712 11719; mkR 11720 11727;
  mkR 11728 11735; mkR 11736 11743; mkR 12294 12295; mkR 12348 12349; mkR 12353 12439; mkR 12447 12448; mkR 12449 12539; mkR 12543 12544;
  mkR 12549 12590; mkR 12593 12687; mkR 12704 12731; mkR 12784 12800; mkR 13312 13313; mkR 19893 19894; mkR 19968 19969; mkR 40907 40908;
  mkR 40960 40981; mkR 40982 42125; mkR 42192 42232; mkR 42240 42508; mkR 42512 42528; mkR 42538 42540; mkR 42606 42607; mkR 42656 42726;
  mkR 43003 43010; mkR 43011 43014; mkR 43015 43019; mkR 43020 43043; mkR 43072 43124; mkR 43138 43188; mkR 43250 43256; mkR 43259 43260;
  mkR 43274 43302; mkR 43312 43335; mkR 43360 43389; mkR 43396 43443; mkR 43520 43561; mkR 43584 43587; mkR 43588 43596; mkR 43616 43632;
  mkR 43633 43639; mkR 43642 43643; mkR 43648 43696; mkR 43697 43698; mkR 43701 43703; mkR 43705 43710; mkR 43712 43713; mkR 43714 43715;
  mkR 43739 43741; mkR 43777 43783; mkR 43785 43791; mkR 43793 43799; mkR 43808 43815; mkR 43816 43823; mkR 43968 44003; mkR 44032 44033;
  mkR 55203 55204; mkR 55216 55239; mkR 55243 55292; mkR 63744 64046; mkR 64048 64110; mkR 64112 64218; mkR 64285 64286; mkR 64287 64297;
  mkR 64298 64311; mkR 64312 64317; mkR 64318 64319; mkR 64320 64322; mkR 64323 64325; mkR 64326 64434; mkR 64467 64830; mkR 64848 64912;
  mkR 64914 64968; mkR 65008 65020; mkR 65136 65141; mkR 65142 65277; mkR 65382 65392; mkR 65393 65438; mkR 65440 65471; mkR 65474 65480;
  mkR 65482 65488; mkR 65490 65496; mkR 65498 65501; mkR 65536 65548; mkR 65549 65575; mkR 65576 65595; mkR 65596 65598; mkR 65599 65614;
  mkR 65616 65630; mkR 65664 65787; mkR 66176 66205; mkR 66208 66257; mkR 66304 66335; mkR 66352 66369; mkR 66370 66378; mkR 66432 66462;
  mkR 66464 66500; mkR 66504 66512; mkR 66640 66718; mkR 67584 67590; mkR 67592 67593; mkR 67594 67638; mkR 67639 67641; mkR 67644 67645;
  mkR 67647 67670; mkR 67840 67862; mkR 67872 67898; mkR 68096 68097; mkR 68112 68116; mkR 68117 68120; mkR 68121 68148; mkR 68192 68221;
  mkR 68352 68406; mkR 68416 68438; mkR 68448 68467; mkR 68608 68681; mkR 69635 69688; mkR 69763 69808; mkR 73728 74607; mkR 77824 78895;
  mkR 92160 92729; mkR 110592 110594; mkR 131072 131073; mkR 173782 173783; mkR 173824 173825; mkR 177972 177973; mkR 177984 177985; mkR 178205 178206;
  mkR 194560 195102].
(** unicode_data.h 26: s_RangePi *)
Definition range_Pi : list range := [
  mkR 171 172; mkR 8216 8217; mkR 8219 8221; mkR 8223 8224; mkR 8249 8250; mkR 11778 11779; mkR 11780 11781; mkR 11785 11786;
  mkR 11788 11789; mkR 11804 11805; mkR 11808 11809].
(** unicode_data.h 27: s_RangeMe *)
Definition range_Me : list range := [
  mkR 1160 1162; mkR 8413 8417; mkR 8418 8421; mkR 42608 42611].
(** unicode_data.h 28: s_RangeLl *)
Definition range_Ll : list range := [
  mkR 97 123; mkR 170 171; mkR 181 182; mkR 186 187; mkR 223 247; mkR 248 256; mkR 257 258; mkR 259 260;
  mkR 261 262; mkR 263 264; mkR 265 266; mkR 267 268; mkR 269 270; mkR 271 272; mkR 273 274; mkR 275 276;
  mkR 277 278; mkR 279 280; mkR 281 282; mkR 283 284; mkR 285 286; mkR 287 288; mkR 289 290; mkR 291 292;
  mkR 293 294; mkR 295 296; mkR 297 298; mkR 299 300; mkR 301 302; mkR 303 304; mkR 305 306; mkR 307 308;
  mkR 309 310; mkR 311 313; mkR 314 315; mkR 316 317; mkR 318 319; mkR 320 321; mkR 322 323; mkR 324 325;
  mkR 326 327; mkR 328 330; mkR 331 332; mkR 333 334; mkR 335 336; mkR 337 338; mkR 339 340; mkR 341 342;
  mkR 343 344; mkR 345 346; mkR 347 348; mkR 349 350; mkR 351 352; mkR 353 354; mkR 355 356; mkR 357 358;
  mkR 359 360; mkR 361 362; mkR 363 364; mkR 365 366; mkR 367 368; mkR 369 370; mkR 371 372; mkR 373 374;
  mkR 375 376; mkR 378 379; mkR 380 381; mkR 382 385; mkR 387 388; mkR 389 390; mkR 392 393; mkR 396 398;
  mkR 402 403; mkR 405 406; mkR 409 412; mkR 414 415; mkR 417 418; mkR 419 420; mkR 421 422; mkR 424 425;
  mkR 426 428; mkR 429 430; mkR 432 433; mkR 436 437; mkR 438 439; mkR 441 443; mkR 445 448; mkR 454 455;
  mkR 457 458; mkR 460 461; mkR 462 463; mkR 464 465; mkR 466 467; mkR 468 469; mkR 470 471; mkR 472 473;
  mkR 474 475; mkR 476 478; mkR 479 480; mkR 481 482; mkR 483 484; mkR 485 486; mkR 487 488; mkR 489 490;
  mkR 491 492; mkR 493 494; mkR 495 497; mkR 499 500; mkR 501 502; mkR 505 506; mkR 507 508; mkR 509 510;
  mkR 511 512; mkR 513 514; mkR 515 516; mkR 517 518; mkR 519 520; mkR 521 522; mkR 523 524; mkR 525 526;
  mkR 527 528; mkR 529 530; mkR 531 532; mkR 533 534; mkR 535 536; mkR 537 538; mkR 539 540; mkR 541 542;
  mkR 543 544; mkR 545 546; mkR 547 548; mkR 549 550; mkR 551 552; mkR 553 554; mkR 555 556; mkR 557 558;
  mkR 559 560; mkR 561 562; mkR 563 570; mkR 572 573; mkR 575 577; mkR 578 579; mkR 583 584; mkR 585 586;
  mkR 587 588; mkR 589 590; mkR 591 660; mkR 661 688; mkR 881 882; mkR 883 884; mkR 887 888; mkR 891 894;
  mkR 912 913; mkR 940 975; mkR 976 978; mkR 981 984; mkR 985 986; mkR 987 988; mkR 989 990; mkR 991 992;
  mkR 993 994; mkR 995 996; mkR 997 998; mkR 999 1000; mkR 1001 1002; mkR 1003 1004; mkR 1005 1006; mkR 1007 1012;
  mkR 1013 1014; mkR 1016 1017; mkR 1019 1021; mkR 1072 1120; mkR 1121 1122; mkR 1123 1124; mkR 1125 1126; mkR 1127 1128;
  mkR 1129 1130; mkR 1131 1132; mkR 1133 1134; mkR 1135 1136; mkR 1137 1138; mkR 1139 1140; mkR 1141 1142; mkR 1143 1144;
  mkR 1145 1146; mkR 1147 1148; mkR 1149 1150; mkR 1151 1152; mkR 1153 1154; mkR 1163 1164; mkR 1165 1166; mkR 1167 1168;
  mkR 1169 1170; mkR 1171 1172; mkR 1173 1174; mkR 1175 1176; mkR 1177 1178; mkR 1179 1180; mkR 1181 1182; mkR 1183 1184;
  mkR 1185 1186; mkR 1187 1188; mkR 1189 1190; mkR 1191 1192; mkR 1193 1194; mkR 1195 1196; mkR 1197 1198; mkR 1199 1200;
  mkR 1201 1202; mkR 1203 1204; mkR 1205 1206; mkR 1207 1208; mkR 1209 1210; mkR 1211 1212; mkR 1213 1214; mkR 1215 1216;
  mkR 1218 1219; mkR 1220 1221; mkR 1222 1223; mkR 1224 1225; mkR 1226 1227; mkR 1228 1229; mkR 1230 1232; mkR 1233 1234;
  mkR 1235 1236; mkR 1237 1238; mkR 1239 1240; mkR 1241 1242; mkR 1243 1244; mkR 1245 1246; mkR 1247 1248; mkR 1249 1250;
  mkR 1251 1252; mkR 1253 1254; mkR 1255 1256; mkR 1257 1258; mkR 1259 1260; mkR 1261 1262; mkR 1263 1264; mkR 1265 1266;
  mkR 1267 1268; mkR 1269 1270; mkR 1271 1272; mkR 1273 1274; mkR 1275 1276; mkR 1277 1278; mkR 1279 1280; mkR 1281 1282;
  mkR 1283 1284; mkR 1285 1286; mkR 1287 1288; mkR 1289 1290; mkR 1291 1292; mkR 1293 1294; mkR 1295 1296; mkR 1297 1298;
  mkR 1299 1300; mkR 1301 1302; mkR 1303 1304; mkR 1305 1306; mkR 1307 1308; mkR 1309 1310; mkR 1311 1312; mkR 1313 1314;
  mkR 1315 1316; mkR 1317 1318; mkR 1319 1320; mkR 1377 1416; mkR 7424 7468; mkR 7522 7544; mkR 7545 7579; mkR 7681 7682;
  mkR 7683 7684; mkR 7685 7686; mkR 7687 7688; mkR 7689 7690; mkR 7691 7692; mkR 7693 7694; mkR 7695 7696; mkR 7697 7698;
  mkR 7699 7700; mkR 7701 7702; mkR 7703 7704; mkR 7705 7706; mkR 7707 7708; mkR 7709 7710; mkR 7711 7712; mkR 7713 7714;
  mkR 7715 7716; mkR 7717 7718; mkR 7719 7720; mkR 7721 7722; mkR 7723 7724; mkR 7725 7726; mkR 7727 7728; mkR 7729 7730;
  mkR 7731 7732; mkR 7733 7734; mkR 7735 7736; mkR 7737 7738; mkR 7739 7740; mkR 7741 7742; mkR 7743 7744; mkR 7745 7746;
  mkR 7747 7748; mkR 7749 7750; mkR 7751 7752; mkR 7753 7754; mkR 7755 7756; mkR 7757 7758; mkR 7759 7760; mkR 7761 7762;
  mkR 7763 7764; mkR 7765 7766; mkR 7767 7768; mkR 7769 7770; mkR 7771 7772; mkR 7773 7774; mkR 7775 7776; mkR 7777 7778;
  mkR 7779 7780; mkR 7781 7782; mkR 7783 7784; mkR 7785 7786; mkR 7787 7788; mkR 7789 7790; mkR 7791 7792; mkR 7793 7794;
  mkR 7795 7796; mkR 7797 7798; mkR 7799 7800; mkR 7801 7802; mkR 7803 7804; mkR 7805 7806; mkR 7807 7808; mkR 7809 7810;
  mkR 7811 7812; mkR 7813 7814; mkR 7815 7816; mkR 7817 7818; mkR 7819 7820; mkR 7821 7822; mkR 7823 7824; mkR 7825 7826;
  mkR 7827 7828; mkR 7829 7838; mkR 7839 7840; mkR 7841 7842; mkR 7843 7844; mkR 7845 7846; mkR 7847 7848; mkR 7849 7850;
  mkR 7851 7852; mkR 7853 7854; mkR 7855 7856; mkR 7857 7858; mkR 7859 7860; mkR 7861 7862; mkR 7863 7864; mkR 7865 7866;
  mkR 7867 7868; mkR 7869 7870; mkR 7871 7872; mkR 7873 7874; mkR 7875 7876; mkR 7877 7878; mkR 7879 7880; mkR 7881 7882;
  mkR 7883 7884; mkR 7885 7886; mkR 7887 7888; mkR 7889 7890; mkR 7891 7892; mkR 7893 7894; mkR 7895 7896; mkR 7897 7898;
  mkR 7899 7900; mkR 7901 7902; mkR 7903 7904; mkR 7905 7906; mkR 7907 7908; mkR 7909 7910; mkR 7911 7912; mkR 7913 7914;
  mkR 7915 7916; mkR 7917 7918; mkR 7919 7920; mkR 7921 7922; mkR 7923 7924; mkR 7925 7926; mkR 7927 7928; mkR 7929 7930;
  mkR 7931 7932; mkR 7933 7934; mkR 7935 7944; mkR 7952 7958; mkR 7968 7976; mkR 7984 7992; mkR 8000 8006; mkR 8016 8024;
  mkR 8032 8040; mkR 8048 8062; mkR 8064 8072; mkR 8080 8088; mkR 8096 8104; mkR 8112 8117; mkR 8118 8120; mkR 8126 8127;
  mkR 8130 8133; mkR 8134 8136; mkR 8144 8148; mkR 8150 8152; mkR 8160 8168; mkR 8178 8181; mkR 8182 8184; mkR 8458 8459;
  mkR 8462 8464; mkR 8467 8468; mkR 8495 8496; mkR 8500 8501; mkR 8505 8506; mkR 8508 8510; mkR 8518 8522; mkR 8526 8527;
  mkR 8580 8581; mkR 11312 11359; mkR 11361 11362; mkR 11365 11367; mkR 11368 11369; mkR 11370 11371; mkR 11372 11373; mkR 11377 11378;
  mkR 11379 11381; mkR 11382 11389; mkR 11393 11394; mkR 11395 11396; mkR 11397 11398; mkR 11399 11400; mkR 11401 11402; mkR 11403 11404;
  mkR 11405 11406; mkR 11407 11408; mkR 11409 11410; mkR 11411 11412; mkR 11413 11414; mkR 11415 11416; mkR 11417 11418; mkR 11419 11420;
  mkR 11421 11422; mkR 11423 11424; mkR 11425 11426; mkR 11427 11428; mkR 11429 11430; mkR 11431 11432; mkR 11433 11434; mkR 11435 11436;
  mkR 11437 11438; mkR 11439 11440; mkR 11441 11442; mkR 11443 11444; mkR 11445 11446; mkR 11447 11448; mkR 11449 11450; mkR 11451 11452;
  mkR 11453 11454; mkR 11455 11456; mkR 11457 11458; mkR 11459 11460; mkR 11461 11462; mkR 11463 11464; mkR 11465 11466; mkR 11467 11468;
  mkR 11469 11470; mkR 11471 11472; mkR 11473 11474; mkR 11475 11476; mkR 11477 11478; mkR 11479 11480; mkR 11481 11482; mkR 11483 11484;
  mkR 11485 11486; mkR 11487 11488; mkR 11489 11490; mkR 11491 11493; mkR 11500 11501; mkR 11502 11503; mkR 11520 11558; mkR 42561 42562;
  mkR 42563 42564; mkR 42565 42566; mkR 42567 42568; mkR 42569 42570; mkR 42571 42572; mkR 42573 42574; mkR 42575 42576; mkR 42577 42578;
  mkR 42579 42580; mkR 42581 42582; mkR 42583 42584; mkR 42585 42586; mkR 42587 42588; mkR 42589 42590; mkR 42591 42592; mkR 42593 42594;
  mkR 42595 42596; mkR 42597 42598; mkR 42599 42600; mkR 42601 42602; mkR 42603 42604; mkR 42605 42606; mkR 42625 42626; mkR 42627 42628;
  mkR 42629 42630; mkR 42631 42632; mkR 42633 42634; mkR 42635 42636; mkR 42637 42638; mkR 42639 42640; mkR 42641 42642; mkR 42643 42644;
  mkR 42645 42646; mkR 42647 42648; mkR 42787 42788; mkR 42789 42790; mkR 42791 42792; mkR 42793 42794; mkR 42795 42796; mkR 42797 42798;
  mkR 42799 42802; mkR 42803 42804; mkR 42805 42806; mkR 42807 42808; mkR 42809 42810; mkR 42811 42812; mkR 42813 42814; mkR 42815 42816;
  mkR 42817 42818; mkR 42819 42820; mkR 42821 42822; mkR 42823 42824; mkR 42825 42826; mkR 42827 42828; mkR 42829 42830; mkR 42831 42832;
  mkR 42833 42834; mkR 42835 42836; mkR 42837 42838; mkR 42839 42840; mkR 42841 42842; mkR 42843 42844; mkR 42845 42846; mkR 42847 42848;
  mkR 42849 42850; mkR 42851 42852; mkR 42853 42854; mkR 42855 42856; mkR 42857 42858; mkR 42859 42860; mkR 42861 42862; mkR 42863 42864;
  mkR 42865 42873; mkR 42874 42875; mkR 42876 42877; mkR 42879 42880; mkR 42881 42882; mkR 42883 42884; mkR 42885 42886; mkR 42887 42888;
  mkR 42892 42893; mkR 42894 42895; mkR 42897 42898; mkR 42913 42914; mkR 42915 42916; mkR 42917 42918; mkR 42919 42920; mkR 42921 42922;
  mkR 43002 43003; mkR 64256 64263; mkR 64275 64280; mkR 65345 65371; mkR 66600 66640; mkR 119834 119860; mkR 119886 119893; mkR 119894 119912;
  mkR 119938 119964; mkR 119990 119994; mkR 119995 119996; mkR 119997 120004; mkR 120005 120016; mkR 120042 120068; mkR 120094 120120; mkR 120146 120172;
  mkR 120198 120224; mkR 120250 120276; mkR 120302 120328; mkR 120354 120380; mkR 120406 120432; mkR 120458 120486; mkR 120514 120539; mkR 120540 120546;
  mkR 120572 120597; mkR 120598 120604; mkR 120630 120655; mkR 120656 120662; mkR 120688 120713; mkR 120714 120720; mkR 120746 120771; mkR 120772 120778;
  mkR 120779 120780].
(** unicode_data.h 29: s_RangeZl *)
Definition range_Zl : list range := [
  mkR 8232 8233].
(** unicode_data.h 30: s_RangeSk *)
Definition range_Sk : list range := [
  mkR 94 95; mkR 96 97; mkR 168 169; mkR 175 176; mkR 180 181; mkR 184 185; mkR 706 710; mkR 722 736;
  mkR 741 748; mkR 749 750; mkR 751 768; mkR 885 886; mkR 900 902; mkR 8125 8126; mkR 8127 8130; mkR 8141 8144;
  mkR 8157 8160; mkR 8173 8176; mkR 8189 8191; mkR 12443 12445; mkR 42752 42775; mkR 42784 42786; mkR 42889 42891; mkR 64434 64450;
  mkR 65342 65343; mkR 65344 65345; mkR 65507 65508].
(** unicode_data.h 31: s_RangeSc *)
Definition range_Sc : list range := [
  mkR 36 37; mkR 162 166; mkR 1547 1548; mkR 2546 2548; mkR 2555 2556; mkR 2801 2802; mkR 3065 3066; mkR 3647 3648;
  mkR 6107 6108; mkR 8352 8378; mkR 43064 43065; mkR 65020 65021; mkR 65129 65130; mkR 65284 65285; mkR 65504 65506; mkR 65509 65511].

(** unicode_data.h 33-66: s_Blocks up to s_EndBlock; the type is given by the codes of its two letters *)
Definition blocks : list ((Z * Z) * list range) := [
  ((67, 111), range_Co);  (* Co *)
  ((76, 109), range_Lm);  (* Lm *)
  ((80, 100), range_Pd);  (* Pd *)
  ((83, 111), range_So);  (* So *)
  ((78, 100), range_Nd);  (* Nd *)
  ((90, 112), range_Zp);  (* Zp *)
  ((80, 111), range_Po);  (* Po *)
  ((78, 111), range_No);  (* No *)
  ((77, 110), range_Mn);  (* Mn *)
  ((67, 102), range_Cf);  (* Cf *)
  ((90, 115), range_Zs);  (* Zs *)
  ((80, 101), range_Pe);  (* Pe *)
  ((80, 102), range_Pf);  (* Pf *)
  ((80, 115), range_Ps);  (* Ps *)
  ((67, 99), range_Cc);  (* Cc *)
  ((76, 117), range_Lu);  (* Lu *)
  ((77, 99), range_Mc);  (* Mc *)
  ((83, 109), range_Sm);  (* Sm *)
  ((67, 115), range_Cs);  (* Cs *)
  ((76, 116), range_Lt);  (* Lt *)
  ((80, 99), range_Pc);  (* Pc *)
  ((78, 108), range_Nl);  (* Nl *)
  ((76, 111), range_Lo);  (* Lo *)
  ((80, 105), range_Pi);  (* Pi *)
  ((77, 101), range_Me);  (* Me *)
  ((76, 108), range_Ll);  (* Ll *)
  ((90, 108), range_Zl);  (* Zl *)
  ((83, 107), range_Sk);  (* Sk *)
  ((83, 99), range_Sc)].  (* Sc *)
