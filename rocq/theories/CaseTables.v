(** The case mapping tables of TameParse/Unicode/unicode_data.h (lines 68-76), copied from
    that file.  No proofs in this file. *)
From Verif Require Import Base TextModel.
Local Open Scope Z_scope.

(** unicode_data.h 68-70: s_UppercaseMap, 621 entries *)
Definition uppercase_map : list map_entry := [
  mkE 97 123 65; mkE 181 182 924; mkE 224 247 192; mkE 248 255 216; mkE 255 256 376; mkE 257 258 256;
  mkE 259 260 258; mkE 261 262 260; mkE 263 264 262; mkE 265 266 264; mkE 267 268 266; mkE 269 270 268;
  mkE 271 272 270; mkE 273 274 272; mkE 275 276 274; mkE 277 278 276; mkE 279 280 278; mkE 281 282 280;
  mkE 283 284 282; mkE 285 286 284; mkE 287 288 286; mkE 289 290 288; mkE 291 292 290; mkE 293 294 292;
  mkE 295 296 294; mkE 297 298 296; mkE 299 300 298; mkE 301 302 300; mkE 303 304 302; mkE 305 306 73;
  mkE 307 308 306; mkE 309 310 308; mkE 311 312 310; mkE 314 315 313; mkE 316 317 315; mkE 318 319 317;
  mkE 320 321 319; mkE 322 323 321; mkE 324 325 323; mkE 326 327 325; mkE 328 329 327; mkE 331 332 330;
  mkE 333 334 332; mkE 335 336 334; mkE 337 338 336; mkE 339 340 338; mkE 341 342 340; mkE 343 344 342;
  mkE 345 346 344; mkE 347 348 346; mkE 349 350 348; mkE 351 352 350; mkE 353 354 352; mkE 355 356 354;
  mkE 357 358 356; mkE 359 360 358; mkE 361 362 360; mkE 363 364 362; mkE 365 366 364; mkE 367 368 366;
  mkE 369 370 368; mkE 371 372 370; mkE 373 374 372; mkE 375 376 374; mkE 378 379 377; mkE 380 381 379;
  mkE 382 383 381; mkE 383 384 83; mkE 384 385 579; mkE 387 388 386; mkE 389 390 388; mkE 392 393 391;
  mkE 396 397 395; mkE 402 403 401; mkE 405 406 502; mkE 409 410 408; mkE 410 411 573; mkE 414 415 544;
  mkE 417 418 416; mkE 419 420 418; mkE 421 422 420; mkE 424 425 423; mkE 429 430 428; mkE 432 433 431;
  mkE 436 437 435; mkE 438 439 437; mkE 441 442 440; mkE 445 446 444; mkE 447 448 503; mkE 453 454 452;
  mkE 454 455 452; mkE 456 457 455; mkE 457 458 455; mkE 459 460 458; mkE 460 461 458; mkE 462 463 461;
  mkE 464 465 463; mkE 466 467 465; mkE 468 469 467; mkE 470 471 469; mkE 472 473 471; mkE 474 475 473;
  mkE 476 477 475; mkE 477 478 398; mkE 479 480 478; mkE 481 482 480; mkE 483 484 482; mkE 485 486 484;
  mkE 487 488 486; mkE 489 490 488; mkE 491 492 490; mkE 493 494 492; mkE 495 496 494; mkE 498 499 497;
  mkE 499 500 497; mkE 501 502 500; mkE 505 506 504; mkE 507 508 506; mkE 509 510 508; mkE 511 512 510;
  mkE 513 514 512; mkE 515 516 514; mkE 517 518 516; mkE 519 520 518; mkE 521 522 520; mkE 523 524 522;
  mkE 525 526 524; mkE 527 528 526; mkE 529 530 528; mkE 531 532 530; mkE 533 534 532; mkE 535 536 534;
  mkE 537 538 536; mkE 539 540 538; mkE 541 542 540; mkE 543 544 542; mkE 547 548 546; mkE 549 550 548;
  mkE 551 552 550; mkE 553 554 552; mkE 555 556 554; mkE 557 558 556; mkE 559 560 558; mkE 561 562 560;
  mkE 563 564 562; mkE 572 573 571; mkE 575 577 11390; mkE 578 579 577; mkE 583 584 582; mkE 585 586 584;
  mkE 587 588 586; mkE 589 590 588; mkE 591 592 590; mkE 592 593 11375; mkE 593 594 11373; mkE 594 595 11376;
  mkE 595 596 385; mkE 596 597 390; mkE 598 600 393; mkE 601 602 399; mkE 603 604 400; mkE 608 609 403;
  mkE 611 612 404; mkE 613 614 42893; mkE 616 617 407; mkE 617 618 406; mkE 619 620 11362; mkE 623 624 412;
  mkE 625 626 11374; mkE 626 627 413; mkE 629 630 415; mkE 637 638 11364; mkE 640 641 422; mkE 643 644 425;
  mkE 648 649 430; mkE 649 650 580; mkE 650 652 433; mkE 652 653 581; mkE 658 659 439; mkE 837 838 921;
  mkE 881 882 880; mkE 883 884 882; mkE 887 888 886; mkE 891 894 1021; mkE 940 941 902; mkE 941 944 904;
  mkE 945 962 913; mkE 962 963 931; mkE 963 972 931; mkE 972 973 908; mkE 973 975 910; mkE 976 977 914;
  mkE 977 978 920; mkE 981 982 934; mkE 982 983 928; mkE 983 984 975; mkE 985 986 984; mkE 987 988 986;
  mkE 989 990 988; mkE 991 992 990; mkE 993 994 992; mkE 995 996 994; mkE 997 998 996; mkE 999 1000 998;
  mkE 1001 1002 1000; mkE 1003 1004 1002; mkE 1005 1006 1004; mkE 1007 1008 1006; mkE 1008 1009 922;
  mkE 1009 1010 929; mkE 1010 1011 1017; mkE 1013 1014 917; mkE 1016 1017 1015; mkE 1019 1020 1018;
  mkE 1072 1104 1040; mkE 1104 1120 1024; mkE 1121 1122 1120; mkE 1123 1124 1122; mkE 1125 1126 1124;
  mkE 1127 1128 1126; mkE 1129 1130 1128; mkE 1131 1132 1130; mkE 1133 1134 1132; mkE 1135 1136 1134;
  mkE 1137 1138 1136; mkE 1139 1140 1138; mkE 1141 1142 1140; mkE 1143 1144 1142; mkE 1145 1146 1144;
  mkE 1147 1148 1146; mkE 1149 1150 1148; mkE 1151 1152 1150; mkE 1153 1154 1152; mkE 1163 1164 1162;
  mkE 1165 1166 1164; mkE 1167 1168 1166; mkE 1169 1170 1168; mkE 1171 1172 1170; mkE 1173 1174 1172;
  mkE 1175 1176 1174; mkE 1177 1178 1176; mkE 1179 1180 1178; mkE 1181 1182 1180; mkE 1183 1184 1182;
  mkE 1185 1186 1184; mkE 1187 1188 1186; mkE 1189 1190 1188; mkE 1191 1192 1190; mkE 1193 1194 1192;
  mkE 1195 1196 1194; mkE 1197 1198 1196; mkE 1199 1200 1198; mkE 1201 1202 1200; mkE 1203 1204 1202;
  mkE 1205 1206 1204; mkE 1207 1208 1206; mkE 1209 1210 1208; mkE 1211 1212 1210; mkE 1213 1214 1212;
  mkE 1215 1216 1214; mkE 1218 1219 1217; mkE 1220 1221 1219; mkE 1222 1223 1221; mkE 1224 1225 1223;
  mkE 1226 1227 1225; mkE 1228 1229 1227; mkE 1230 1231 1229; mkE 1231 1232 1216; mkE 1233 1234 1232;
  mkE 1235 1236 1234; mkE 1237 1238 1236; mkE 1239 1240 1238; mkE 1241 1242 1240; mkE 1243 1244 1242;
  mkE 1245 1246 1244; mkE 1247 1248 1246; mkE 1249 1250 1248; mkE 1251 1252 1250; mkE 1253 1254 1252;
  mkE 1255 1256 1254; mkE 1257 1258 1256; mkE 1259 1260 1258; mkE 1261 1262 1260; mkE 1263 1264 1262;
  mkE 1265 1266 1264; mkE 1267 1268 1266; mkE 1269 1270 1268; mkE 1271 1272 1270; mkE 1273 1274 1272;
  mkE 1275 1276 1274; mkE 1277 1278 1276; mkE 1279 1280 1278; mkE 1281 1282 1280; mkE 1283 1284 1282;
  mkE 1285 1286 1284; mkE 1287 1288 1286; mkE 1289 1290 1288; mkE 1291 1292 1290; mkE 1293 1294 1292;
  mkE 1295 1296 1294; mkE 1297 1298 1296; mkE 1299 1300 1298; mkE 1301 1302 1300; mkE 1303 1304 1302;
  mkE 1305 1306 1304; mkE 1307 1308 1306; mkE 1309 1310 1308; mkE 1311 1312 1310; mkE 1313 1314 1312;
  mkE 1315 1316 1314; mkE 1317 1318 1316; mkE 1319 1320 1318; mkE 1377 1415 1329; mkE 7545 7546 42877;
  mkE 7549 7550 11363; mkE 7681 7682 7680; mkE 7683 7684 7682; mkE 7685 7686 7684; mkE 7687 7688 7686;
  mkE 7689 7690 7688; mkE 7691 7692 7690; mkE 7693 7694 7692; mkE 7695 7696 7694; mkE 7697 7698 7696;
  mkE 7699 7700 7698; mkE 7701 7702 7700; mkE 7703 7704 7702; mkE 7705 7706 7704; mkE 7707 7708 7706;
  mkE 7709 7710 7708; mkE 7711 7712 7710; mkE 7713 7714 7712; mkE 7715 7716 7714; mkE 7717 7718 7716;
  mkE 7719 7720 7718; mkE 7721 7722 7720; mkE 7723 7724 7722; mkE 7725 7726 7724; mkE 7727 7728 7726;
  mkE 7729 7730 7728; mkE 7731 7732 7730; mkE 7733 7734 7732; mkE 7735 7736 7734; mkE 7737 7738 7736;
  mkE 7739 7740 7738; mkE 7741 7742 7740; mkE 7743 7744 7742; mkE 7745 7746 7744; mkE 7747 7748 7746;
  mkE 7749 7750 7748; mkE 7751 7752 7750; mkE 7753 7754 7752; mkE 7755 7756 7754; mkE 7757 7758 7756;
  mkE 7759 7760 7758; mkE 7761 7762 7760; mkE 7763 7764 7762; mkE 7765 7766 7764; mkE 7767 7768 7766;
  mkE 7769 7770 7768; mkE 7771 7772 7770; mkE 7773 7774 7772; mkE 7775 7776 7774; mkE 7777 7778 7776;
  mkE 7779 7780 7778; mkE 7781 7782 7780; mkE 7783 7784 7782; mkE 7785 7786 7784; mkE 7787 7788 7786;
  mkE 7789 7790 7788; mkE 7791 7792 7790; mkE 7793 7794 7792; mkE 7795 7796 7794; mkE 7797 7798 7796;
  mkE 7799 7800 7798; mkE 7801 7802 7800; mkE 7803 7804 7802; mkE 7805 7806 7804; mkE 7807 7808 7806;
  mkE 7809 7810 7808; mkE 7811 7812 7810; mkE 7813 7814 7812; mkE 7815 7816 7814; mkE 7817 7818 7816;
  mkE 7819 7820 7818; mkE 7821 7822 7820; mkE 7823 7824 7822; mkE 7825 7826 7824; mkE 7827 7828 7826;
  mkE 7829 7830 7828; mkE 7835 7836 7776; mkE 7841 7842 7840; mkE 7843 7844 7842; mkE 7845 7846 7844;
  mkE 7847 7848 7846; mkE 7849 7850 7848; mkE 7851 7852 7850; mkE 7853 7854 7852; mkE 7855 7856 7854;
  mkE 7857 7858 7856; mkE 7859 7860 7858; mkE 7861 7862 7860; mkE 7863 7864 7862; mkE 7865 7866 7864;
  mkE 7867 7868 7866; mkE 7869 7870 7868; mkE 7871 7872 7870; mkE 7873 7874 7872; mkE 7875 7876 7874;
  mkE 7877 7878 7876; mkE 7879 7880 7878; mkE 7881 7882 7880; mkE 7883 7884 7882; mkE 7885 7886 7884;
  mkE 7887 7888 7886; mkE 7889 7890 7888; mkE 7891 7892 7890; mkE 7893 7894 7892; mkE 7895 7896 7894;
  mkE 7897 7898 7896; mkE 7899 7900 7898; mkE 7901 7902 7900; mkE 7903 7904 7902; mkE 7905 7906 7904;
  mkE 7907 7908 7906; mkE 7909 7910 7908; mkE 7911 7912 7910; mkE 7913 7914 7912; mkE 7915 7916 7914;
  mkE 7917 7918 7916; mkE 7919 7920 7918; mkE 7921 7922 7920; mkE 7923 7924 7922; mkE 7925 7926 7924;
  mkE 7927 7928 7926; mkE 7929 7930 7928; mkE 7931 7932 7930; mkE 7933 7934 7932; mkE 7935 7936 7934;
  mkE 7936 7944 7944; mkE 7952 7958 7960; mkE 7968 7976 7976; mkE 7984 7992 7992; mkE 8000 8006 8008;
  mkE 8017 8018 8025; mkE 8019 8020 8027; mkE 8021 8022 8029; mkE 8023 8024 8031; mkE 8032 8040 8040;
  mkE 8048 8050 8122; mkE 8050 8054 8136; mkE 8054 8056 8154; mkE 8056 8058 8184; mkE 8058 8060 8170;
  mkE 8060 8062 8186; mkE 8064 8072 8072; mkE 8080 8088 8088; mkE 8096 8104 8104; mkE 8112 8114 8120;
  mkE 8115 8116 8124; mkE 8126 8127 921; mkE 8131 8132 8140; mkE 8144 8146 8152; mkE 8160 8162 8168;
  mkE 8165 8166 8172; mkE 8179 8180 8188; mkE 8526 8527 8498; mkE 8560 8576 8544; mkE 8580 8581 8579;
  mkE 9424 9450 9398; mkE 11312 11359 11264; mkE 11361 11362 11360; mkE 11365 11366 570; mkE 11366 11367 574;
  mkE 11368 11369 11367; mkE 11370 11371 11369; mkE 11372 11373 11371; mkE 11379 11380 11378;
  mkE 11382 11383 11381; mkE 11393 11394 11392; mkE 11395 11396 11394; mkE 11397 11398 11396;
  mkE 11399 11400 11398; mkE 11401 11402 11400; mkE 11403 11404 11402; mkE 11405 11406 11404;
  mkE 11407 11408 11406; mkE 11409 11410 11408; mkE 11411 11412 11410; mkE 11413 11414 11412;
  mkE 11415 11416 11414; mkE 11417 11418 11416; mkE 11419 11420 11418; mkE 11421 11422 11420;
  mkE 11423 11424 11422; mkE 11425 11426 11424; mkE 11427 11428 11426; mkE 11429 11430 11428;
  mkE 11431 11432 11430; mkE 11433 11434 11432; mkE 11435 11436 11434; mkE 11437 11438 11436;
  mkE 11439 11440 11438; mkE 11441 11442 11440; mkE 11443 11444 11442; mkE 11445 11446 11444;
  mkE 11447 11448 11446; mkE 11449 11450 11448; mkE 11451 11452 11450; mkE 11453 11454 11452;
  mkE 11455 11456 11454; mkE 11457 11458 11456; mkE 11459 11460 11458; mkE 11461 11462 11460;
  mkE 11463 11464 11462; mkE 11465 11466 11464; mkE 11467 11468 11466; mkE 11469 11470 11468;
  mkE 11471 11472 11470; mkE 11473 11474 11472; mkE 11475 11476 11474; mkE 11477 11478 11476;
  mkE 11479 11480 11478; mkE 11481 11482 11480; mkE 11483 11484 11482; mkE 11485 11486 11484;
  mkE 11487 11488 11486; mkE 11489 11490 11488; mkE 11491 11492 11490; mkE 11500 11501 11499;
  mkE 11502 11503 11501; mkE 11520 11558 4256; mkE 42561 42562 42560; mkE 42563 42564 42562;
  mkE 42565 42566 42564; mkE 42567 42568 42566; mkE 42569 42570 42568; mkE 42571 42572 42570;
  mkE 42573 42574 42572; mkE 42575 42576 42574; mkE 42577 42578 42576; mkE 42579 42580 42578;
  mkE 42581 42582 42580; mkE 42583 42584 42582; mkE 42585 42586 42584; mkE 42587 42588 42586;
  mkE 42589 42590 42588; mkE 42591 42592 42590; mkE 42593 42594 42592; mkE 42595 42596 42594;
  mkE 42597 42598 42596; mkE 42599 42600 42598; mkE 42601 42602 42600; mkE 42603 42604 42602;
  mkE 42605 42606 42604; mkE 42625 42626 42624; mkE 42627 42628 42626; mkE 42629 42630 42628;
  mkE 42631 42632 42630; mkE 42633 42634 42632; mkE 42635 42636 42634; mkE 42637 42638 42636;
  mkE 42639 42640 42638; mkE 42641 42642 42640; mkE 42643 42644 42642; mkE 42645 42646 42644;
  mkE 42647 42648 42646; mkE 42787 42788 42786; mkE 42789 42790 42788; mkE 42791 42792 42790;
  mkE 42793 42794 42792; mkE 42795 42796 42794; mkE 42797 42798 42796; mkE 42799 42800 42798;
  mkE 42803 42804 42802; mkE 42805 42806 42804; mkE 42807 42808 42806; mkE 42809 42810 42808;
  mkE 42811 42812 42810; mkE 42813 42814 42812; mkE 42815 42816 42814; mkE 42817 42818 42816;
  mkE 42819 42820 42818; mkE 42821 42822 42820; mkE 42823 42824 42822; mkE 42825 42826 42824;
  mkE 42827 42828 42826; mkE 42829 42830 42828; mkE 42831 42832 42830; mkE 42833 42834 42832;
  mkE 42835 42836 42834; mkE 42837 42838 42836; mkE 42839 42840 42838; mkE 42841 42842 42840;
  mkE 42843 42844 42842; mkE 42845 42846 42844; mkE 42847 42848 42846; mkE 42849 42850 42848;
  mkE 42851 42852 42850; mkE 42853 42854 42852; mkE 42855 42856 42854; mkE 42857 42858 42856;
  mkE 42859 42860 42858; mkE 42861 42862 42860; mkE 42863 42864 42862; mkE 42874 42875 42873;
  mkE 42876 42877 42875; mkE 42879 42880 42878; mkE 42881 42882 42880; mkE 42883 42884 42882;
  mkE 42885 42886 42884; mkE 42887 42888 42886; mkE 42892 42893 42891; mkE 42897 42898 42896;
  mkE 42913 42914 42912; mkE 42915 42916 42914; mkE 42917 42918 42916; mkE 42919 42920 42918;
  mkE 42921 42922 42920; mkE 65345 65371 65313; mkE 66600 66640 66560].

(** unicode_data.h 71-73: s_LowercaseMap, 613 entries *)
Definition lowercase_map : list map_entry := [
  mkE 65 91 97; mkE 192 215 224; mkE 216 223 248; mkE 256 257 257; mkE 258 259 259; mkE 260 261 261;
  mkE 262 263 263; mkE 264 265 265; mkE 266 267 267; mkE 268 269 269; mkE 270 271 271; mkE 272 273 273;
  mkE 274 275 275; mkE 276 277 277; mkE 278 279 279; mkE 280 281 281; mkE 282 283 283; mkE 284 285 285;
  mkE 286 287 287; mkE 288 289 289; mkE 290 291 291; mkE 292 293 293; mkE 294 295 295; mkE 296 297 297;
  mkE 298 299 299; mkE 300 301 301; mkE 302 303 303; mkE 304 305 105; mkE 306 307 307; mkE 308 309 309;
  mkE 310 311 311; mkE 313 314 314; mkE 315 316 316; mkE 317 318 318; mkE 319 320 320; mkE 321 322 322;
  mkE 323 324 324; mkE 325 326 326; mkE 327 328 328; mkE 330 331 331; mkE 332 333 333; mkE 334 335 335;
  mkE 336 337 337; mkE 338 339 339; mkE 340 341 341; mkE 342 343 343; mkE 344 345 345; mkE 346 347 347;
  mkE 348 349 349; mkE 350 351 351; mkE 352 353 353; mkE 354 355 355; mkE 356 357 357; mkE 358 359 359;
  mkE 360 361 361; mkE 362 363 363; mkE 364 365 365; mkE 366 367 367; mkE 368 369 369; mkE 370 371 371;
  mkE 372 373 373; mkE 374 375 375; mkE 376 377 255; mkE 377 378 378; mkE 379 380 380; mkE 381 382 382;
  mkE 385 386 595; mkE 386 387 387; mkE 388 389 389; mkE 390 391 596; mkE 391 392 392; mkE 393 395 598;
  mkE 395 396 396; mkE 398 399 477; mkE 399 400 601; mkE 400 401 603; mkE 401 402 402; mkE 403 404 608;
  mkE 404 405 611; mkE 406 407 617; mkE 407 408 616; mkE 408 409 409; mkE 412 413 623; mkE 413 414 626;
  mkE 415 416 629; mkE 416 417 417; mkE 418 419 419; mkE 420 421 421; mkE 422 423 640; mkE 423 424 424;
  mkE 425 426 643; mkE 428 429 429; mkE 430 431 648; mkE 431 432 432; mkE 433 435 650; mkE 435 436 436;
  mkE 437 438 438; mkE 439 440 658; mkE 440 441 441; mkE 444 445 445; mkE 452 453 454; mkE 453 454 454;
  mkE 455 456 457; mkE 456 457 457; mkE 458 459 460; mkE 459 460 460; mkE 461 462 462; mkE 463 464 464;
  mkE 465 466 466; mkE 467 468 468; mkE 469 470 470; mkE 471 472 472; mkE 473 474 474; mkE 475 476 476;
  mkE 478 479 479; mkE 480 481 481; mkE 482 483 483; mkE 484 485 485; mkE 486 487 487; mkE 488 489 489;
  mkE 490 491 491; mkE 492 493 493; mkE 494 495 495; mkE 497 498 499; mkE 498 499 499; mkE 500 501 501;
  mkE 502 503 405; mkE 503 504 447; mkE 504 505 505; mkE 506 507 507; mkE 508 509 509; mkE 510 511 511;
  mkE 512 513 513; mkE 514 515 515; mkE 516 517 517; mkE 518 519 519; mkE 520 521 521; mkE 522 523 523;
  mkE 524 525 525; mkE 526 527 527; mkE 528 529 529; mkE 530 531 531; mkE 532 533 533; mkE 534 535 535;
  mkE 536 537 537; mkE 538 539 539; mkE 540 541 541; mkE 542 543 543; mkE 544 545 414; mkE 546 547 547;
  mkE 548 549 549; mkE 550 551 551; mkE 552 553 553; mkE 554 555 555; mkE 556 557 557; mkE 558 559 559;
  mkE 560 561 561; mkE 562 563 563; mkE 570 571 11365; mkE 571 572 572; mkE 573 574 410; mkE 574 575 11366;
  mkE 577 578 578; mkE 579 580 384; mkE 580 581 649; mkE 581 582 652; mkE 582 583 583; mkE 584 585 585;
  mkE 586 587 587; mkE 588 589 589; mkE 590 591 591; mkE 880 881 881; mkE 882 883 883; mkE 886 887 887;
  mkE 902 903 940; mkE 904 907 941; mkE 908 909 972; mkE 910 912 973; mkE 913 930 945; mkE 931 940 963;
  mkE 975 976 983; mkE 984 985 985; mkE 986 987 987; mkE 988 989 989; mkE 990 991 991; mkE 992 993 993;
  mkE 994 995 995; mkE 996 997 997; mkE 998 999 999; mkE 1000 1001 1001; mkE 1002 1003 1003;
  mkE 1004 1005 1005; mkE 1006 1007 1007; mkE 1012 1013 952; mkE 1015 1016 1016; mkE 1017 1018 1010;
  mkE 1018 1019 1019; mkE 1021 1024 891; mkE 1024 1040 1104; mkE 1040 1072 1072; mkE 1120 1121 1121;
  mkE 1122 1123 1123; mkE 1124 1125 1125; mkE 1126 1127 1127; mkE 1128 1129 1129; mkE 1130 1131 1131;
  mkE 1132 1133 1133; mkE 1134 1135 1135; mkE 1136 1137 1137; mkE 1138 1139 1139; mkE 1140 1141 1141;
  mkE 1142 1143 1143; mkE 1144 1145 1145; mkE 1146 1147 1147; mkE 1148 1149 1149; mkE 1150 1151 1151;
  mkE 1152 1153 1153; mkE 1162 1163 1163; mkE 1164 1165 1165; mkE 1166 1167 1167; mkE 1168 1169 1169;
  mkE 1170 1171 1171; mkE 1172 1173 1173; mkE 1174 1175 1175; mkE 1176 1177 1177; mkE 1178 1179 1179;
  mkE 1180 1181 1181; mkE 1182 1183 1183; mkE 1184 1185 1185; mkE 1186 1187 1187; mkE 1188 1189 1189;
  mkE 1190 1191 1191; mkE 1192 1193 1193; mkE 1194 1195 1195; mkE 1196 1197 1197; mkE 1198 1199 1199;
  mkE 1200 1201 1201; mkE 1202 1203 1203; mkE 1204 1205 1205; mkE 1206 1207 1207; mkE 1208 1209 1209;
  mkE 1210 1211 1211; mkE 1212 1213 1213; mkE 1214 1215 1215; mkE 1216 1217 1231; mkE 1217 1218 1218;
  mkE 1219 1220 1220; mkE 1221 1222 1222; mkE 1223 1224 1224; mkE 1225 1226 1226; mkE 1227 1228 1228;
  mkE 1229 1230 1230; mkE 1232 1233 1233; mkE 1234 1235 1235; mkE 1236 1237 1237; mkE 1238 1239 1239;
  mkE 1240 1241 1241; mkE 1242 1243 1243; mkE 1244 1245 1245; mkE 1246 1247 1247; mkE 1248 1249 1249;
  mkE 1250 1251 1251; mkE 1252 1253 1253; mkE 1254 1255 1255; mkE 1256 1257 1257; mkE 1258 1259 1259;
  mkE 1260 1261 1261; mkE 1262 1263 1263; mkE 1264 1265 1265; mkE 1266 1267 1267; mkE 1268 1269 1269;
  mkE 1270 1271 1271; mkE 1272 1273 1273; mkE 1274 1275 1275; mkE 1276 1277 1277; mkE 1278 1279 1279;
  mkE 1280 1281 1281; mkE 1282 1283 1283; mkE 1284 1285 1285; mkE 1286 1287 1287; mkE 1288 1289 1289;
  mkE 1290 1291 1291; mkE 1292 1293 1293; mkE 1294 1295 1295; mkE 1296 1297 1297; mkE 1298 1299 1299;
  mkE 1300 1301 1301; mkE 1302 1303 1303; mkE 1304 1305 1305; mkE 1306 1307 1307; mkE 1308 1309 1309;
  mkE 1310 1311 1311; mkE 1312 1313 1313; mkE 1314 1315 1315; mkE 1316 1317 1317; mkE 1318 1319 1319;
  mkE 1329 1367 1377; mkE 4256 4294 11520; mkE 7680 7681 7681; mkE 7682 7683 7683; mkE 7684 7685 7685;
  mkE 7686 7687 7687; mkE 7688 7689 7689; mkE 7690 7691 7691; mkE 7692 7693 7693; mkE 7694 7695 7695;
  mkE 7696 7697 7697; mkE 7698 7699 7699; mkE 7700 7701 7701; mkE 7702 7703 7703; mkE 7704 7705 7705;
  mkE 7706 7707 7707; mkE 7708 7709 7709; mkE 7710 7711 7711; mkE 7712 7713 7713; mkE 7714 7715 7715;
  mkE 7716 7717 7717; mkE 7718 7719 7719; mkE 7720 7721 7721; mkE 7722 7723 7723; mkE 7724 7725 7725;
  mkE 7726 7727 7727; mkE 7728 7729 7729; mkE 7730 7731 7731; mkE 7732 7733 7733; mkE 7734 7735 7735;
  mkE 7736 7737 7737; mkE 7738 7739 7739; mkE 7740 7741 7741; mkE 7742 7743 7743; mkE 7744 7745 7745;
  mkE 7746 7747 7747; mkE 7748 7749 7749; mkE 7750 7751 7751; mkE 7752 7753 7753; mkE 7754 7755 7755;
  mkE 7756 7757 7757; mkE 7758 7759 7759; mkE 7760 7761 7761; mkE 7762 7763 7763; mkE 7764 7765 7765;
  mkE 7766 7767 7767; mkE 7768 7769 7769; mkE 7770 7771 7771; mkE 7772 7773 7773; mkE 7774 7775 7775;
  mkE 7776 7777 7777; mkE 7778 7779 7779; mkE 7780 7781 7781; mkE 7782 7783 7783; mkE 7784 7785 7785;
  mkE 7786 7787 7787; mkE 7788 7789 7789; mkE 7790 7791 7791; mkE 7792 7793 7793; mkE 7794 7795 7795;
  mkE 7796 7797 7797; mkE 7798 7799 7799; mkE 7800 7801 7801; mkE 7802 7803 7803; mkE 7804 7805 7805;
  mkE 7806 7807 7807; mkE 7808 7809 7809; mkE 7810 7811 7811; mkE 7812 7813 7813; mkE 7814 7815 7815;
  mkE 7816 7817 7817; mkE 7818 7819 7819; mkE 7820 7821 7821; mkE 7822 7823 7823; mkE 7824 7825 7825;
  mkE 7826 7827 7827; mkE 7828 7829 7829; mkE 7838 7839 223; mkE 7840 7841 7841; mkE 7842 7843 7843;
  mkE 7844 7845 7845; mkE 7846 7847 7847; mkE 7848 7849 7849; mkE 7850 7851 7851; mkE 7852 7853 7853;
  mkE 7854 7855 7855; mkE 7856 7857 7857; mkE 7858 7859 7859; mkE 7860 7861 7861; mkE 7862 7863 7863;
  mkE 7864 7865 7865; mkE 7866 7867 7867; mkE 7868 7869 7869; mkE 7870 7871 7871; mkE 7872 7873 7873;
  mkE 7874 7875 7875; mkE 7876 7877 7877; mkE 7878 7879 7879; mkE 7880 7881 7881; mkE 7882 7883 7883;
  mkE 7884 7885 7885; mkE 7886 7887 7887; mkE 7888 7889 7889; mkE 7890 7891 7891; mkE 7892 7893 7893;
  mkE 7894 7895 7895; mkE 7896 7897 7897; mkE 7898 7899 7899; mkE 7900 7901 7901; mkE 7902 7903 7903;
  mkE 7904 7905 7905; mkE 7906 7907 7907; mkE 7908 7909 7909; mkE 7910 7911 7911; mkE 7912 7913 7913;
  mkE 7914 7915 7915; mkE 7916 7917 7917; mkE 7918 7919 7919; mkE 7920 7921 7921; mkE 7922 7923 7923;
  mkE 7924 7925 7925; mkE 7926 7927 7927; mkE 7928 7929 7929; mkE 7930 7931 7931; mkE 7932 7933 7933;
  mkE 7934 7935 7935; mkE 7944 7952 7936; mkE 7960 7966 7952; mkE 7976 7984 7968; mkE 7992 8000 7984;
  mkE 8008 8014 8000; mkE 8025 8026 8017; mkE 8027 8028 8019; mkE 8029 8030 8021; mkE 8031 8032 8023;
  mkE 8040 8048 8032; mkE 8072 8080 8064; mkE 8088 8096 8080; mkE 8104 8112 8096; mkE 8120 8122 8112;
  mkE 8122 8124 8048; mkE 8124 8125 8115; mkE 8136 8140 8050; mkE 8140 8141 8131; mkE 8152 8154 8144;
  mkE 8154 8156 8054; mkE 8168 8170 8160; mkE 8170 8172 8058; mkE 8172 8173 8165; mkE 8184 8186 8056;
  mkE 8186 8188 8060; mkE 8188 8189 8179; mkE 8486 8487 969; mkE 8490 8491 107; mkE 8491 8492 229;
  mkE 8498 8499 8526; mkE 8544 8560 8560; mkE 8579 8580 8580; mkE 9398 9424 9424; mkE 11264 11311 11312;
  mkE 11360 11361 11361; mkE 11362 11363 619; mkE 11363 11364 7549; mkE 11364 11365 637;
  mkE 11367 11368 11368; mkE 11369 11370 11370; mkE 11371 11372 11372; mkE 11373 11374 593;
  mkE 11374 11375 625; mkE 11375 11376 592; mkE 11376 11377 594; mkE 11378 11379 11379; mkE 11381 11382 11382;
  mkE 11390 11392 575; mkE 11392 11393 11393; mkE 11394 11395 11395; mkE 11396 11397 11397;
  mkE 11398 11399 11399; mkE 11400 11401 11401; mkE 11402 11403 11403; mkE 11404 11405 11405;
  mkE 11406 11407 11407; mkE 11408 11409 11409; mkE 11410 11411 11411; mkE 11412 11413 11413;
  mkE 11414 11415 11415; mkE 11416 11417 11417; mkE 11418 11419 11419; mkE 11420 11421 11421;
  mkE 11422 11423 11423; mkE 11424 11425 11425; mkE 11426 11427 11427; mkE 11428 11429 11429;
  mkE 11430 11431 11431; mkE 11432 11433 11433; mkE 11434 11435 11435; mkE 11436 11437 11437;
  mkE 11438 11439 11439; mkE 11440 11441 11441; mkE 11442 11443 11443; mkE 11444 11445 11445;
  mkE 11446 11447 11447; mkE 11448 11449 11449; mkE 11450 11451 11451; mkE 11452 11453 11453;
  mkE 11454 11455 11455; mkE 11456 11457 11457; mkE 11458 11459 11459; mkE 11460 11461 11461;
  mkE 11462 11463 11463; mkE 11464 11465 11465; mkE 11466 11467 11467; mkE 11468 11469 11469;
  mkE 11470 11471 11471; mkE 11472 11473 11473; mkE 11474 11475 11475; mkE 11476 11477 11477;
  mkE 11478 11479 11479; mkE 11480 11481 11481; mkE 11482 11483 11483; mkE 11484 11485 11485;
  mkE 11486 11487 11487; mkE 11488 11489 11489; mkE 11490 11491 11491; mkE 11499 11500 11500;
  mkE 11501 11502 11502; mkE 42560 42561 42561; mkE 42562 42563 42563; mkE 42564 42565 42565;
  mkE 42566 42567 42567; mkE 42568 42569 42569; mkE 42570 42571 42571; mkE 42572 42573 42573;
  mkE 42574 42575 42575; mkE 42576 42577 42577; mkE 42578 42579 42579; mkE 42580 42581 42581;
  mkE 42582 42583 42583; mkE 42584 42585 42585; mkE 42586 42587 42587; mkE 42588 42589 42589;
  mkE 42590 42591 42591; mkE 42592 42593 42593; mkE 42594 42595 42595; mkE 42596 42597 42597;
  mkE 42598 42599 42599; mkE 42600 42601 42601; mkE 42602 42603 42603; mkE 42604 42605 42605;
  mkE 42624 42625 42625; mkE 42626 42627 42627; mkE 42628 42629 42629; mkE 42630 42631 42631;
  mkE 42632 42633 42633; mkE 42634 42635 42635; mkE 42636 42637 42637; mkE 42638 42639 42639;
  mkE 42640 42641 42641; mkE 42642 42643 42643; mkE 42644 42645 42645; mkE 42646 42647 42647;
  mkE 42786 42787 42787; mkE 42788 42789 42789; mkE 42790 42791 42791; mkE 42792 42793 42793;
  mkE 42794 42795 42795; mkE 42796 42797 42797; mkE 42798 42799 42799; mkE 42802 42803 42803;
  mkE 42804 42805 42805; mkE 42806 42807 42807; mkE 42808 42809 42809; mkE 42810 42811 42811;
  mkE 42812 42813 42813; mkE 42814 42815 42815; mkE 42816 42817 42817; mkE 42818 42819 42819;
  mkE 42820 42821 42821; mkE 42822 42823 42823; mkE 42824 42825 42825; mkE 42826 42827 42827;
  mkE 42828 42829 42829; mkE 42830 42831 42831; mkE 42832 42833 42833; mkE 42834 42835 42835;
  mkE 42836 42837 42837; mkE 42838 42839 42839; mkE 42840 42841 42841; mkE 42842 42843 42843;
  mkE 42844 42845 42845; mkE 42846 42847 42847; mkE 42848 42849 42849; mkE 42850 42851 42851;
  mkE 42852 42853 42853; mkE 42854 42855 42855; mkE 42856 42857 42857; mkE 42858 42859 42859;
  mkE 42860 42861 42861; mkE 42862 42863 42863; mkE 42873 42874 42874; mkE 42875 42876 42876;
  mkE 42877 42878 7545; mkE 42878 42879 42879; mkE 42880 42881 42881; mkE 42882 42883 42883;
  mkE 42884 42885 42885; mkE 42886 42887 42887; mkE 42891 42892 42892; mkE 42893 42894 613;
  mkE 42896 42897 42897; mkE 42912 42913 42913; mkE 42914 42915 42915; mkE 42916 42917 42917;
  mkE 42918 42919 42919; mkE 42920 42921 42921; mkE 65313 65339 65345; mkE 66560 66600 66600].
