(** Generated by tools/lrtables.py from build/parse.y.go and build/parse.y: do not edit. *)
From Coq Require Import ZArith List.
Import ListNotations.
Local Open Scope Z_scope.

(** build/parse.y.go:398-408 [yyExca]. *)
Definition yyExca : list Z :=
  [-1; 1; 1; -1; -2; 0; -1; 79; 6; 55; -2; 128; -1; 169; 20; 125; -2; 126].
(** build/parse.y.go:414-521 [yyAct]. *)
Definition yyAct : list Z :=
  [20; 31; 234; 250; 146; 2; 29; 108; 186; 106; 7; 147; 195; 95; 160; 43; 152; 9; 23; 187;
   159; 105; 240; 220; 174; 40; 87; 88; 89; 90; 44; 84; 39; 36; 93; 98; 101; 49; 209; 54;
   131; 173; 53; 57; 83; 58; 103; 55; 113; 218; 114; 39; 110; 36; 118; 119; 120; 121; 122; 123;
   124; 125; 126; 127; 128; 129; 130; 200; 132; 133; 134; 135; 136; 137; 138; 139; 140; 35; 217; 56;
   238; 219; 189; 38; 51; 52; 143; 110; 92; 33; 36; 34; 155; 156; 54; 85; 157; 53; 13; 164;
   76; 94; 55; 162; 36; 37; 163; 36; 39; 168; 263; 171; 32; 48; 167; 109; 165; 212; 190; 116;
   36; 77; 39; 175; 100; 207; 181; 162; 213; 179; 166; 86; 182; 47; 56; 54; 97; 162; 53; 57;
   117; 58; 201; 55; 111; 112; 248; 196; 188; 115; 193; 247; 191; 197; 158; 205; 79; 194; 261; 206;
   84; 227; 78; 154; 211; 231; 47; 154; 80; 211; 221; 214; 216; 204; 208; 56; 72; 73; 210; 149;
   208; 44; 47; 47; 223; 215; 102; 180; 45; 47; 222; 245; 244; 142; 202; 196; 228; 229; 46; 232;
   233; 197; 225; 235; 151; 42; 260; 230; 178; 148; 237; 226; 200; 47; 169; 153; 264; 224; 236; 192;
   172; 141; 91; 239; 104; 177; 1; 10; 243; 18; 249; 241; 246; 188; 176; 242; 99; 96; 251; 253;
   41; 50; 19; 252; 12; 256; 257; 7; 8; 235; 203; 258; 4; 30; 259; 161; 262; 150; 184; 185;
   81; 82; 251; 266; 265; 35; 144; 252; 27; 145; 26; 38; 0; 0; 0; 0; 0; 33; 0; 34;
   0; 0; 0; 0; 28; 0; 0; 6; 0; 0; 11; 0; 36; 37; 22; 0; 0; 0; 0; 24;
   32; 0; 0; 0; 0; 0; 0; 0; 25; 0; 39; 21; 14; 15; 16; 17; 0; 254; 35; 5;
   0; 27; 0; 26; 38; 0; 0; 0; 0; 0; 33; 0; 34; 0; 0; 0; 0; 28; 0; 0;
   6; 3; 0; 11; 0; 36; 37; 22; 0; 0; 0; 54; 24; 32; 53; 57; 0; 58; 0; 55;
   0; 25; 0; 39; 21; 14; 15; 16; 17; 70; 35; 0; 5; 27; 0; 26; 38; 0; 0; 0;
   0; 0; 33; 0; 34; 0; 0; 0; 0; 28; 0; 56; 72; 73; 0; 0; 0; 36; 37; 0;
   0; 0; 0; 0; 24; 32; 0; 0; 0; 0; 0; 0; 0; 25; 0; 39; 0; 14; 15; 16;
   17; 0; 54; 0; 107; 53; 57; 0; 58; 0; 55; 0; 59; 255; 60; 0; 0; 0; 0; 69;
   70; 71; 0; 0; 68; 0; 0; 61; 0; 64; 0; 0; 75; 0; 0; 65; 74; 0; 0; 62;
   63; 0; 56; 72; 73; 54; 66; 67; 53; 57; 0; 58; 0; 55; 170; 59; 0; 60; 0; 0;
   0; 0; 69; 70; 71; 0; 0; 68; 0; 0; 61; 0; 64; 0; 0; 75; 0; 0; 65; 74;
   0; 0; 62; 63; 0; 56; 72; 73; 54; 66; 67; 53; 57; 0; 58; 0; 55; 0; 59; 0;
   60; 0; 0; 0; 0; 69; 70; 71; 0; 0; 68; 0; 0; 61; 0; 64; 0; 0; 75; 183;
   0; 65; 74; 0; 0; 62; 63; 0; 56; 72; 73; 54; 66; 67; 53; 57; 0; 58; 0; 55;
   0; 59; 0; 60; 0; 0; 0; 0; 69; 70; 71; 0; 0; 68; 0; 0; 61; 162; 64; 0;
   0; 75; 0; 0; 65; 74; 0; 0; 62; 63; 0; 56; 72; 73; 54; 66; 67; 53; 57; 0;
   58; 0; 55; 0; 59; 0; 60; 0; 0; 0; 0; 69; 70; 71; 0; 0; 68; 0; 0; 61;
   0; 64; 0; 0; 75; 0; 0; 65; 74; 0; 0; 62; 63; 0; 56; 72; 73; 35; 66; 67;
   27; 0; 26; 38; 0; 0; 0; 0; 0; 33; 0; 34; 0; 0; 0; 0; 28; 0; 0; 0;
   0; 0; 0; 0; 36; 37; 0; 0; 0; 0; 0; 24; 32; 0; 0; 0; 0; 0; 0; 0;
   25; 0; 39; 0; 14; 15; 16; 17; 54; 0; 0; 53; 57; 0; 58; 0; 55; 0; 59; 0;
   60; 0; 0; 0; 0; 69; 70; 71; 0; 0; 68; 0; 0; 61; 0; 64; 0; 0; 0; 0;
   0; 65; 74; 0; 0; 62; 63; 0; 56; 72; 73; 54; 66; 67; 53; 57; 0; 58; 0; 55;
   0; 59; 0; 60; 0; 0; 0; 0; 69; 70; 71; 0; 0; 68; 0; 0; 61; 0; 64; 0;
   0; 0; 0; 0; 65; 0; 0; 0; 62; 63; 0; 56; 72; 73; 54; 66; 67; 53; 57; 0;
   58; 0; 55; 0; 59; 0; 60; 0; 0; 0; 0; 69; 70; 71; 0; 0; 68; 0; 0; 61;
   0; 64; 0; 0; 0; 0; 0; 65; 0; 0; 0; 62; 63; 0; 56; 72; 73; 54; 66; 0;
   53; 57; 0; 58; 0; 55; 0; 59; 0; 60; 0; 0; 0; 0; 69; 70; 71; 0; 0; 0;
   0; 0; 61; 0; 64; 0; 0; 0; 0; 0; 65; 0; 0; 0; 62; 63; 0; 56; 72; 73;
   35; 66; 198; 27; 200; 26; 38; 0; 0; 0; 0; 0; 33; 0; 34; 0; 0; 0; 0; 28;
   0; 0; 0; 0; 0; 0; 0; 36; 37; 0; 0; 0; 0; 54; 24; 32; 53; 57; 199; 58;
   0; 55; 0; 25; 35; 39; 198; 27; 0; 26; 38; 70; 71; 0; 0; 0; 33; 0; 34; 0;
   0; 0; 0; 28; 0; 0; 0; 0; 0; 0; 0; 36; 37; 56; 72; 73; 0; 0; 24; 32;
   35; 0; 199; 27; 200; 26; 38; 25; 0; 39; 0; 0; 33; 0; 34; 0; 0; 0; 0; 28;
   0; 0; 0; 0; 0; 0; 0; 36; 37; 0; 0; 0; 0; 0; 24; 32; 35; 0; 0; 27;
   0; 26; 38; 25; 0; 39; 0; 0; 33; 0; 34; 0; 0; 0; 0; 28; 0; 0; 0; 0;
   0; 0; 0; 36; 37; 0; 0; 0; 0; 54; 24; 32; 53; 57; 0; 58; 0; 55; 0; 25;
   0; 39; 0; 0; 0; 0; 69; 70; 71; 0; 0; 0; 0; 0; 0; 0; 0; 0; 0; 0;
   0; 0; 0; 0; 0; 0; 0; 0; 0; 56; 72; 73].
(** build/parse.y.go:523-551 [yyPact]. *)
Definition yyPact : list Z :=
  [-1000; -1000; 313; -1000; -1000; -1000; -34; -1000; -1000; -1000; 192; 72; -1000; 173; 971; -1000; -1000; -1000; -10; 49;
   590; 68; 971; 151; 88; 971; 971; 971; 971; -1000; -1000; -1000; 217; 971; 971; 971; -1000; 175; 13; -1000;
   -1000; -41; 365; 78; 151; 971; 971; 971; 204; 971; 971; 106; -1000; 971; 971; 971; 971; 971; 971; 971;
   971; 971; 971; 971; 971; 971; 3; 971; 971; 971; 971; 971; 971; 971; 971; 971; 216; 180; 54; 200;
   971; 191; 206; -1000; 152; 21; 21; -1000; -1000; -1000; -1000; 200; 136; 547; 200; 73; 110; 205; 461; 200;
   214; 590; 8; -1000; -35; 632; -1000; -1000; -1000; 971; 72; 204; 204; 684; 590; 174; 365; -1000; -1000; -1000;
   -1000; -1000; 90; 90; 1005; 1005; 1005; 1005; 1005; 1005; 1005; 971; 770; 813; 889; 131; 347; 35; 35; 727;
   504; 75; 365; -1000; 213; 200; 899; 203; -1000; 124; 181; 971; -1000; 88; 971; -1000; -1000; -18; -1000; 107;
   4; -1000; 72; 935; -1000; 97; -1000; 108; 935; -1000; 971; 935; -1000; -1000; -1000; -1000; 22; -36; 157; 151;
   365; -1000; 1005; 971; 211; 202; -1000; -1000; 148; 21; 21; -1000; -1000; -1000; 855; -1000; 590; 150; 971; 971;
   -1000; -1000; 971; -1000; -1000; 590; 200; -1000; 4; 971; 43; 590; -1000; -1000; 590; -1000; 461; -1000; -37; -1000;
   -1000; 365; -1000; 684; -1000; -1000; 75; 971; 179; 178; -1000; 971; 590; 590; 133; 590; 58; 684; 971; 260;
   -1000; -1000; -1000; 418; 971; 971; 590; -1000; 971; 197; -1000; -1000; 143; 684; -1000; 971; 590; 590; 92; 210;
   1; -18; 590; -1000; -1000; -1000; -1000].
(** build/parse.y.go:553-559 [yyPgo]. *)
Definition yyPgo : list Z :=
  [0; 16; 11; 4; 12; 269; 266; 19; 261; 260; 8; 259; 258; 0; 2; 88; 18; 98; 257; 101;
   15; 255; 14; 20; 6; 253; 5; 252; 248; 244; 242; 241; 7; 17; 240; 13; 237; 236; 1; 9;
   234; 3; 230; 229; 227; 226; 225; 224].
(** build/parse.y.go:561-577 [yyR1]. *)
Definition yyR1 : list Z :=
  [0; 45; 39; 39; 46; 46; 40; 40; 40; 26; 26; 26; 26; 27; 27; 43; 44; 44; 28; 28;
   28; 30; 30; 29; 29; 31; 31; 32; 34; 34; 33; 33; 33; 33; 33; 33; 33; 33; 47; 47;
   16; 16; 16; 16; 16; 16; 16; 16; 16; 16; 16; 16; 16; 16; 16; 6; 6; 5; 5; 4;
   4; 4; 4; 42; 42; 41; 41; 9; 9; 12; 12; 8; 8; 11; 11; 7; 7; 7; 7; 7;
   10; 10; 10; 10; 10; 17; 17; 18; 18; 13; 13; 13; 13; 13; 13; 13; 13; 13; 13; 13;
   13; 13; 13; 13; 13; 13; 13; 13; 13; 13; 13; 13; 13; 13; 13; 13; 13; 13; 19; 19;
   14; 14; 15; 15; 1; 1; 2; 2; 3; 3; 35; 37; 37; 36; 36; 36; 20; 20; 38; 24;
   25; 25; 25; 25; 21; 22; 22; 23; 23].
(** build/parse.y.go:579-595 [yyR2]. *)
Definition yyR2 : list Z :=
  [0; 2; 5; 2; 0; 2; 0; 3; 2; 0; 2; 2; 3; 1; 1; 5; 1; 3; 3; 6;
   1; 4; 5; 1; 4; 2; 1; 4; 0; 3; 1; 2; 1; 3; 3; 1; 1; 1; 0; 1;
   1; 1; 1; 3; 8; 4; 4; 6; 8; 3; 4; 4; 3; 4; 3; 0; 2; 2; 3; 1;
   3; 2; 2; 1; 3; 1; 3; 0; 2; 0; 2; 1; 3; 1; 3; 1; 3; 2; 1; 2;
   1; 3; 5; 4; 4; 1; 3; 0; 1; 1; 4; 2; 2; 2; 2; 3; 3; 3; 3; 3;
   3; 3; 3; 3; 3; 3; 3; 3; 4; 3; 3; 3; 3; 3; 3; 3; 3; 5; 1; 3;
   0; 1; 0; 2; 0; 1; 1; 2; 0; 1; 3; 1; 3; 0; 1; 2; 1; 3; 1; 1;
   3; 2; 2; 1; 4; 1; 3; 1; 2].
(** build/parse.y.go:597-625 [yyChk]. *)
Definition yyChk : list Z :=
  [-1000; -45; -26; 28; -27; 59; 27; -32; -28; -33; -44; 30; -29; -17; 52; 53; 54; 55; -43; -30;
   -13; 51; 34; -16; 39; 48; 10; 8; 24; -24; -25; -38; 40; 17; 19; 5; 32; 33; 11; 50;
   59; -34; 13; -20; -16; 15; 25; 9; -17; 47; -31; 35; 36; 7; 4; 12; 44; 8; 10; 14;
   16; 29; 41; 42; 31; 37; 48; 49; 26; 21; 22; 23; 45; 46; 38; 34; 32; -17; 11; 5;
   17; -9; -8; -7; -24; 7; 43; -13; -13; -13; -13; 5; -15; -13; -19; -35; -36; -19; -13; -37;
   -15; -13; 11; 33; -47; 62; -39; 59; -32; 37; 9; -17; -17; -13; -13; -17; 13; 34; -13; -13;
   -13; -13; -13; -13; -13; -13; -13; -13; -13; -13; -13; 37; -13; -13; -13; -13; -13; -13; -13; -13;
   -13; 5; 13; 32; -6; -5; -3; -2; 9; -17; -18; 13; -1; 9; 15; -24; -24; -3; 18; -23;
   -22; -21; 30; -2; -3; -23; 20; -1; -2; 9; 13; -2; 6; 33; 59; -33; -40; -46; -17; -16;
   13; -39; -13; 35; -12; -11; -10; -7; -24; 7; 43; -39; 6; -3; -2; -4; -13; -24; 7; 43;
   9; 18; 13; -17; -7; -13; -38; 18; -22; 34; -20; -13; 20; 20; -13; -35; -13; 56; 27; 59;
   59; 13; -39; -13; 6; -1; 9; 13; -24; -24; -4; 15; -13; -13; -14; -13; -2; -13; 37; -26;
   59; -39; -10; -13; 13; 13; -13; 18; 13; -42; -41; -38; -24; -13; 57; 15; -13; -13; -14; -3;
   9; 15; -13; 18; 6; -41; -38].
(** build/parse.y.go:627-655 [yyDef]. *)
Definition yyDef : list Z :=
  [9; -2; 0; 1; 10; 11; 0; 13; 14; 28; 0; 0; 20; 30; 32; 35; 36; 37; 16; 23;
   85; 0; 0; 89; 67; 0; 0; 0; 0; 40; 41; 42; 0; 122; 133; 122; 139; 143; 0; 138;
   12; 38; 0; 0; 136; 0; 0; 0; 31; 0; 0; 0; 26; 0; 0; 0; 0; 0; 0; 0;
   0; 0; 0; 0; 0; 0; 0; 0; 0; 0; 0; 0; 0; 0; 0; 0; 0; 0; 0; -2;
   87; 0; 124; 71; 75; 78; 0; 91; 92; 93; 94; 128; 0; 118; 128; 131; 0; 124; 118; 134;
   0; 118; 141; 142; 0; 39; 18; 6; 4; 0; 0; 33; 34; 86; 17; 0; 0; 25; 95; 96;
   97; 98; 99; 100; 101; 102; 103; 104; 105; 106; 107; 0; 109; 110; 111; 112; 113; 114; 115; 116;
   0; 69; 0; 43; 0; 128; 0; 129; 126; 88; 0; 0; 68; 125; 0; 77; 79; 0; 49; 0;
   147; 145; 0; 129; 123; 0; 52; 0; 0; -2; 0; 135; 54; 140; 27; 29; 0; 3; 0; 137;
   0; 24; 108; 0; 0; 124; 73; 80; 75; 78; 0; 21; 45; 56; 129; 57; 59; 40; 0; 0;
   127; 46; 120; 90; 72; 76; 0; 50; 148; 0; 0; 119; 51; 53; 130; 132; 0; 9; 0; 8;
   5; 0; 22; 117; 15; 70; 125; 0; 77; 79; 58; 0; 61; 62; 0; 121; 0; 146; 0; 0;
   7; 19; 74; 81; 0; 0; 60; 47; 120; 128; 63; 65; 0; 144; 2; 0; 83; 84; 0; 0;
   126; 0; 82; 48; 44; 64; 66].
(** build/parse.y.go:657-671 [yyTok1]. *)
Definition yyTok1 : list Z :=
  [1; 3; 3; 3; 3; 3; 3; 3; 3; 3; 59; 3; 3; 3; 3; 3; 3; 3; 3; 3;
   3; 3; 3; 3; 3; 3; 3; 3; 3; 3; 3; 3; 3; 3; 3; 3; 3; 4; 22; 3;
   5; 6; 7; 8; 9; 10; 11; 12; 3; 3; 3; 3; 3; 3; 3; 3; 3; 3; 13; 62;
   14; 15; 16; 3; 3; 3; 3; 3; 3; 3; 3; 3; 3; 3; 3; 3; 3; 3; 3; 3;
   3; 3; 3; 3; 3; 3; 3; 3; 3; 3; 3; 17; 3; 18; 23; 3; 3; 3; 3; 3;
   3; 3; 3; 3; 3; 3; 3; 3; 3; 3; 3; 3; 3; 3; 3; 3; 3; 3; 3; 3;
   3; 3; 3; 19; 21; 20; 24].
(** build/parse.y.go:673-678 [yyTok2]. *)
Definition yyTok2 : list Z :=
  [2; 3; 25; 26; 27; 28; 29; 30; 31; 32; 33; 34; 35; 36; 37; 38; 39; 40; 41; 42;
   43; 44; 45; 46; 47; 48; 49; 50; 51; 52; 53; 54; 55; 56; 57; 58; 60; 61].
(** build/parse.y.go:410-412 and 723. *)
Definition yyPrivate : Z := 57344.
Definition yyLast : Z := 1052.
Definition yyFlag : Z := -1000.
(** build/parse.y.go:76-139 [yyToknames]: the internal numbers of the terminals. *)
Definition t_percent : Z := 4.
Definition t_lparen : Z := 5.
Definition t_rparen : Z := 6.
Definition t_star : Z := 7.
Definition t_plus : Z := 8.
Definition t_comma : Z := 9.
Definition t_minus : Z := 10.
Definition t_dot : Z := 11.
Definition t_slash : Z := 12.
Definition t_colon : Z := 13.
Definition t_lt : Z := 14.
Definition t_assign : Z := 15.
Definition t_gt : Z := 16.
Definition t_lbrack : Z := 17.
Definition t_rbrack : Z := 18.
Definition t_lbrace : Z := 19.
Definition t_rbrace : Z := 20.
Definition t_bar : Z := 21.
Definition t_amp : Z := 22.
Definition t_caret : Z := 23.
Definition t_tilde : Z := 24.
Definition T_AUGM : Z := 25.
Definition T_AND : Z := 26.
Definition T_COMMENT : Z := 27.
Definition T_EOF : Z := 28.
Definition T_EQ : Z := 29.
Definition T_FOR : Z := 30.
Definition T_GE : Z := 31.
Definition T_IDENT : Z := 32.
Definition T_INT : Z := 33.
Definition T_IF : Z := 34.
Definition T_ELSE : Z := 35.
Definition T_ELIF : Z := 36.
Definition T_IN : Z := 37.
Definition T_IS : Z := 38.
Definition T_LAMBDA : Z := 39.
Definition T_LOAD : Z := 40.
Definition T_LE : Z := 41.
Definition T_NE : Z := 42.
Definition T_STAR_STAR : Z := 43.
Definition T_INT_DIV : Z := 44.
Definition T_BIT_LSH : Z := 45.
Definition T_BIT_RSH : Z := 46.
Definition T_ARROW : Z := 47.
Definition T_NOT : Z := 48.
Definition T_OR : Z := 49.
Definition T_STRING : Z := 50.
Definition T_DEF : Z := 51.
Definition T_RETURN : Z := 52.
Definition T_PASS : Z := 53.
Definition T_BREAK : Z := 54.
Definition T_CONTINUE : Z := 55.
Definition T_INDENT : Z := 56.
Definition T_UNINDENT : Z := 57.
Definition t_newline : Z := 59.
Definition t_semi : Z := 62.
(** The nonterminals, numbered as in [yyR1]; symbols of the grammar are terminals (positive) or nonterminals (negative). *)
Definition N_comma_opt : Z := -1.
Definition N_commas : Z := -2.
Definition N_commas_opt : Z := -3.
Definition N_argument : Z := -4.
Definition N_arguments : Z := -5.
Definition N_arguments_opt : Z := -6.
Definition N_parameter : Z := -7.
Definition N_parameters : Z := -8.
Definition N_parameters_opt : Z := -9.
Definition N_parameter_type : Z := -10.
Definition N_parameters_type : Z := -11.
Definition N_parameters_type_opt : Z := -12.
Definition N_test : Z := -13.
Definition N_test_opt : Z := -14.
Definition N_tests_opt : Z := -15.
Definition N_primary_expr : Z := -16.
Definition N_expr : Z := -17.
Definition N_expr_opt : Z := -18.
Definition N_tests : Z := -19.
Definition N_loop_vars : Z := -20.
Definition N_for_clause : Z := -21.
Definition N_for_clause_with_if_clauses_opt : Z := -22.
Definition N_for_clauses_with_if_clauses_opt : Z := -23.
Definition N_ident : Z := -24.
Definition N_number : Z := -25.
Definition N_stmts : Z := -26.
Definition N_stmt : Z := -27.
Definition N_block_stmt : Z := -28.
Definition N_if_else_block : Z := -29.
Definition N_if_chain : Z := -30.
Definition N_elif : Z := -31.
Definition N_simple_stmt : Z := -32.
Definition N_small_stmt : Z := -33.
Definition N_small_stmts_continuation : Z := -34.
Definition N_keyvalue : Z := -35.
Definition N_keyvalues : Z := -36.
Definition N_keyvalues_no_comma : Z := -37.
Definition N_string : Z := -38.
Definition N_suite : Z := -39.
Definition N_comments : Z := -40.
Definition N_load_argument : Z := -41.
Definition N_load_arguments : Z := -42.
Definition N_def_header : Z := -43.
Definition N_def_header_type_opt : Z := -44.
Definition N_file : Z := -45.
Definition N_linebreaks_opt : Z := -46.
Definition N_semi_opt : Z := -47.
(** build/parse.y:209-1056: the rules of the grammar, numbered from 1. *)
Definition rules : list (Z * list Z) :=
  [(* 1 *) (N_file, [N_stmts; T_EOF]);
   (* 2 *) (N_suite, [t_newline; N_comments; T_INDENT; N_stmts; T_UNINDENT]);
   (* 3 *) (N_suite, [N_simple_stmt; N_linebreaks_opt]);
   (* 4 *) (N_linebreaks_opt, []);
   (* 5 *) (N_linebreaks_opt, [N_linebreaks_opt; t_newline]);
   (* 6 *) (N_comments, []);
   (* 7 *) (N_comments, [N_comments; T_COMMENT; t_newline]);
   (* 8 *) (N_comments, [N_comments; t_newline]);
   (* 9 *) (N_stmts, []);
   (* 10 *) (N_stmts, [N_stmts; N_stmt]);
   (* 11 *) (N_stmts, [N_stmts; t_newline]);
   (* 12 *) (N_stmts, [N_stmts; T_COMMENT; t_newline]);
   (* 13 *) (N_stmt, [N_simple_stmt]);
   (* 14 *) (N_stmt, [N_block_stmt]);
   (* 15 *) (N_def_header, [T_DEF; T_IDENT; t_lparen; N_parameters_type_opt; t_rparen]);
   (* 16 *) (N_def_header_type_opt, [N_def_header]);
   (* 17 *) (N_def_header_type_opt, [N_def_header; T_ARROW; N_test]);
   (* 18 *) (N_block_stmt, [N_def_header_type_opt; t_colon; N_suite]);
   (* 19 *) (N_block_stmt, [T_FOR; N_loop_vars; T_IN; N_expr; t_colon; N_suite]);
   (* 20 *) (N_block_stmt, [N_if_else_block]);
   (* 21 *) (N_if_chain, [T_IF; N_expr; t_colon; N_suite]);
   (* 22 *) (N_if_chain, [N_if_chain; N_elif; N_expr; t_colon; N_suite]);
   (* 23 *) (N_if_else_block, [N_if_chain]);
   (* 24 *) (N_if_else_block, [N_if_chain; T_ELSE; t_colon; N_suite]);
   (* 25 *) (N_elif, [T_ELSE; T_IF]);
   (* 26 *) (N_elif, [T_ELIF]);
   (* 27 *) (N_simple_stmt, [N_small_stmt; N_small_stmts_continuation; N_semi_opt; t_newline]);
   (* 28 *) (N_small_stmts_continuation, []);
   (* 29 *) (N_small_stmts_continuation, [N_small_stmts_continuation; t_semi; N_small_stmt]);
   (* 30 *) (N_small_stmt, [N_expr]);
   (* 31 *) (N_small_stmt, [T_RETURN; N_expr]);
   (* 32 *) (N_small_stmt, [T_RETURN]);
   (* 33 *) (N_small_stmt, [N_expr; t_assign; N_expr]);
   (* 34 *) (N_small_stmt, [N_expr; T_AUGM; N_expr]);
   (* 35 *) (N_small_stmt, [T_PASS]);
   (* 36 *) (N_small_stmt, [T_BREAK]);
   (* 37 *) (N_small_stmt, [T_CONTINUE]);
   (* 38 *) (N_semi_opt, []);
   (* 39 *) (N_semi_opt, [t_semi]);
   (* 40 *) (N_primary_expr, [N_ident]);
   (* 41 *) (N_primary_expr, [N_number]);
   (* 42 *) (N_primary_expr, [N_string]);
   (* 43 *) (N_primary_expr, [N_primary_expr; t_dot; T_IDENT]);
   (* 44 *) (N_primary_expr, [T_LOAD; t_lparen; N_commas_opt; N_string; N_commas; N_load_arguments; N_commas_opt; t_rparen]);
   (* 45 *) (N_primary_expr, [N_primary_expr; t_lparen; N_arguments_opt; t_rparen]);
   (* 46 *) (N_primary_expr, [N_primary_expr; t_lbrack; N_expr; t_rbrack]);
   (* 47 *) (N_primary_expr, [N_primary_expr; t_lbrack; N_expr_opt; t_colon; N_test_opt; t_rbrack]);
   (* 48 *) (N_primary_expr, [N_primary_expr; t_lbrack; N_expr_opt; t_colon; N_test_opt; t_colon; N_test_opt; t_rbrack]);
   (* 49 *) (N_primary_expr, [t_lbrack; N_tests_opt; t_rbrack]);
   (* 50 *) (N_primary_expr, [t_lbrack; N_test; N_for_clauses_with_if_clauses_opt; t_rbrack]);
   (* 51 *) (N_primary_expr, [t_lbrace; N_keyvalue; N_for_clauses_with_if_clauses_opt; t_rbrace]);
   (* 52 *) (N_primary_expr, [t_lbrace; N_keyvalues; t_rbrace]);
   (* 53 *) (N_primary_expr, [t_lbrace; N_tests; N_comma_opt; t_rbrace]);
   (* 54 *) (N_primary_expr, [t_lparen; N_tests_opt; t_rparen]);
   (* 55 *) (N_arguments_opt, []);
   (* 56 *) (N_arguments_opt, [N_arguments; N_commas_opt]);
   (* 57 *) (N_arguments, [N_commas_opt; N_argument]);
   (* 58 *) (N_arguments, [N_arguments; N_commas; N_argument]);
   (* 59 *) (N_argument, [N_test]);
   (* 60 *) (N_argument, [N_ident; t_assign; N_test]);
   (* 61 *) (N_argument, [t_star; N_test]);
   (* 62 *) (N_argument, [T_STAR_STAR; N_test]);
   (* 63 *) (N_load_arguments, [N_load_argument]);
   (* 64 *) (N_load_arguments, [N_load_arguments; t_comma; N_load_argument]);
   (* 65 *) (N_load_argument, [N_string]);
   (* 66 *) (N_load_argument, [N_ident; t_assign; N_string]);
   (* 67 *) (N_parameters_opt, []);
   (* 68 *) (N_parameters_opt, [N_parameters; N_comma_opt]);
   (* 69 *) (N_parameters_type_opt, []);
   (* 70 *) (N_parameters_type_opt, [N_parameters_type; N_comma_opt]);
   (* 71 *) (N_parameters, [N_parameter]);
   (* 72 *) (N_parameters, [N_parameters; t_comma; N_parameter]);
   (* 73 *) (N_parameters_type, [N_parameter_type]);
   (* 74 *) (N_parameters_type, [N_parameters_type; t_comma; N_parameter_type]);
   (* 75 *) (N_parameter, [N_ident]);
   (* 76 *) (N_parameter, [N_ident; t_assign; N_test]);
   (* 77 *) (N_parameter, [t_star; N_ident]);
   (* 78 *) (N_parameter, [t_star]);
   (* 79 *) (N_parameter, [T_STAR_STAR; N_ident]);
   (* 80 *) (N_parameter_type, [N_parameter]);
   (* 81 *) (N_parameter_type, [N_ident; t_colon; N_test]);
   (* 82 *) (N_parameter_type, [N_ident; t_colon; N_test; t_assign; N_test]);
   (* 83 *) (N_parameter_type, [t_star; N_ident; t_colon; N_test]);
   (* 84 *) (N_parameter_type, [T_STAR_STAR; N_ident; t_colon; N_test]);
   (* 85 *) (N_expr, [N_test]);
   (* 86 *) (N_expr, [N_expr; t_comma; N_test]);
   (* 87 *) (N_expr_opt, []);
   (* 88 *) (N_expr_opt, [N_expr]);
   (* 89 *) (N_test, [N_primary_expr]);
   (* 90 *) (N_test, [T_LAMBDA; N_parameters_opt; t_colon; N_expr]);
   (* 91 *) (N_test, [T_NOT; N_test]);
   (* 92 *) (N_test, [t_minus; N_test]);
   (* 93 *) (N_test, [t_plus; N_test]);
   (* 94 *) (N_test, [t_tilde; N_test]);
   (* 95 *) (N_test, [N_test; t_star; N_test]);
   (* 96 *) (N_test, [N_test; t_percent; N_test]);
   (* 97 *) (N_test, [N_test; t_slash; N_test]);
   (* 98 *) (N_test, [N_test; T_INT_DIV; N_test]);
   (* 99 *) (N_test, [N_test; t_plus; N_test]);
   (* 100 *) (N_test, [N_test; t_minus; N_test]);
   (* 101 *) (N_test, [N_test; t_lt; N_test]);
   (* 102 *) (N_test, [N_test; t_gt; N_test]);
   (* 103 *) (N_test, [N_test; T_EQ; N_test]);
   (* 104 *) (N_test, [N_test; T_LE; N_test]);
   (* 105 *) (N_test, [N_test; T_NE; N_test]);
   (* 106 *) (N_test, [N_test; T_GE; N_test]);
   (* 107 *) (N_test, [N_test; T_IN; N_test]);
   (* 108 *) (N_test, [N_test; T_NOT; T_IN; N_test]);
   (* 109 *) (N_test, [N_test; T_OR; N_test]);
   (* 110 *) (N_test, [N_test; T_AND; N_test]);
   (* 111 *) (N_test, [N_test; t_bar; N_test]);
   (* 112 *) (N_test, [N_test; t_amp; N_test]);
   (* 113 *) (N_test, [N_test; t_caret; N_test]);
   (* 114 *) (N_test, [N_test; T_BIT_LSH; N_test]);
   (* 115 *) (N_test, [N_test; T_BIT_RSH; N_test]);
   (* 116 *) (N_test, [N_test; T_IS; N_test]);
   (* 117 *) (N_test, [N_test; T_IF; N_test; T_ELSE; N_test]);
   (* 118 *) (N_tests, [N_test]);
   (* 119 *) (N_tests, [N_tests; N_commas; N_test]);
   (* 120 *) (N_test_opt, []);
   (* 121 *) (N_test_opt, [N_test]);
   (* 122 *) (N_tests_opt, []);
   (* 123 *) (N_tests_opt, [N_tests; N_commas_opt]);
   (* 124 *) (N_comma_opt, []);
   (* 125 *) (N_comma_opt, [t_comma]);
   (* 126 *) (N_commas, [t_comma]);
   (* 127 *) (N_commas, [N_commas; t_comma]);
   (* 128 *) (N_commas_opt, []);
   (* 129 *) (N_commas_opt, [N_commas]);
   (* 130 *) (N_keyvalue, [N_test; t_colon; N_test]);
   (* 131 *) (N_keyvalues_no_comma, [N_keyvalue]);
   (* 132 *) (N_keyvalues_no_comma, [N_keyvalues_no_comma; N_commas; N_keyvalue]);
   (* 133 *) (N_keyvalues, []);
   (* 134 *) (N_keyvalues, [N_keyvalues_no_comma]);
   (* 135 *) (N_keyvalues, [N_keyvalues_no_comma; N_commas]);
   (* 136 *) (N_loop_vars, [N_primary_expr]);
   (* 137 *) (N_loop_vars, [N_loop_vars; t_comma; N_primary_expr]);
   (* 138 *) (N_string, [T_STRING]);
   (* 139 *) (N_ident, [T_IDENT]);
   (* 140 *) (N_number, [T_INT; t_dot; T_INT]);
   (* 141 *) (N_number, [T_INT; t_dot]);
   (* 142 *) (N_number, [t_dot; T_INT]);
   (* 143 *) (N_number, [T_INT]);
   (* 144 *) (N_for_clause, [T_FOR; N_loop_vars; T_IN; N_test]);
   (* 145 *) (N_for_clause_with_if_clauses_opt, [N_for_clause]);
   (* 146 *) (N_for_clause_with_if_clauses_opt, [N_for_clause_with_if_clauses_opt; T_IF; N_test]);
   (* 147 *) (N_for_clauses_with_if_clauses_opt, [N_for_clause_with_if_clauses_opt]);
   (* 148 *) (N_for_clauses_with_if_clauses_opt, [N_for_clauses_with_if_clauses_opt; N_for_clause_with_if_clauses_opt])].
