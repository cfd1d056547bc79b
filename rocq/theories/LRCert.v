(** Generated by tools/lrcert.py: certificates about the automaton of LRTables.v, checked in LRProofs.v. *)
From Coq Require Import ZArith List.
Import ListNotations.
Local Open Scope Z_scope.

(** For each state the states that may be below it on the stack. *)
Definition preds : list (list Z) :=
  [[];
   [];
   [0];
   [2];
   [2; 239];
   [2; 239];
   [2; 239];
   [2; 239];
   [2; 239];
   [2; 42; 116; 142; 180; 221; 239];
   [2; 239];
   [2; 239];
   [2; 239];
   [2; 42; 105; 116; 142; 180; 221; 239];
   [2; 42; 105; 116; 142; 180; 221; 239];
   [2; 42; 105; 116; 142; 180; 221; 239];
   [2; 42; 105; 116; 142; 180; 221; 239];
   [2; 42; 105; 116; 142; 180; 221; 239];
   [2; 239];
   [2; 239];
   [2; 14; 22; 42; 45; 46; 50; 80; 105; 109; 116; 142; 151; 180; 221; 239];
   [2; 239];
   [2; 239];
   [2; 14; 22; 25; 26; 27; 28; 33; 34; 35; 42; 45; 46; 47; 49; 50; 53; 54; 55; 56; 57; 58; 59; 60; 61; 62; 63; 64; 65; 67; 68; 69; 70; 71; 72; 73; 74; 75; 80; 105; 109; 116; 131; 142; 146; 151; 154; 163; 168; 170; 171; 180; 183; 194; 198; 199; 202; 209; 221; 227; 231; 238; 239; 244; 245; 248; 255];
   [2; 14; 22; 25; 26; 27; 28; 33; 34; 35; 42; 45; 46; 47; 49; 50; 53; 54; 55; 56; 57; 58; 59; 60; 61; 62; 63; 64; 65; 67; 68; 69; 70; 71; 72; 73; 74; 75; 80; 105; 109; 116; 131; 142; 146; 151; 154; 163; 168; 170; 171; 180; 183; 194; 198; 199; 202; 209; 221; 227; 231; 238; 239; 244; 245; 248; 255];
   [2; 14; 22; 25; 26; 27; 28; 33; 34; 35; 42; 45; 46; 47; 49; 50; 53; 54; 55; 56; 57; 58; 59; 60; 61; 62; 63; 64; 65; 67; 68; 69; 70; 71; 72; 73; 74; 75; 80; 105; 109; 116; 131; 142; 146; 151; 154; 163; 168; 170; 171; 180; 183; 194; 198; 199; 202; 209; 221; 227; 231; 238; 239; 244; 245; 248; 255];
   [2; 14; 22; 25; 26; 27; 28; 33; 34; 35; 42; 45; 46; 47; 49; 50; 53; 54; 55; 56; 57; 58; 59; 60; 61; 62; 63; 64; 65; 67; 68; 69; 70; 71; 72; 73; 74; 75; 80; 105; 109; 116; 131; 142; 146; 151; 154; 163; 168; 170; 171; 180; 183; 194; 198; 199; 202; 209; 221; 227; 231; 238; 239; 244; 245; 248; 255];
   [2; 14; 22; 25; 26; 27; 28; 33; 34; 35; 42; 45; 46; 47; 49; 50; 53; 54; 55; 56; 57; 58; 59; 60; 61; 62; 63; 64; 65; 67; 68; 69; 70; 71; 72; 73; 74; 75; 80; 105; 109; 116; 131; 142; 146; 151; 154; 163; 168; 170; 171; 180; 183; 194; 198; 199; 202; 209; 221; 227; 231; 238; 239; 244; 245; 248; 255];
   [2; 14; 22; 25; 26; 27; 28; 33; 34; 35; 42; 45; 46; 47; 49; 50; 53; 54; 55; 56; 57; 58; 59; 60; 61; 62; 63; 64; 65; 67; 68; 69; 70; 71; 72; 73; 74; 75; 80; 105; 109; 116; 131; 142; 146; 151; 154; 163; 168; 170; 171; 180; 183; 194; 198; 199; 202; 209; 221; 227; 231; 238; 239; 244; 245; 248; 255];
   [2; 11; 14; 22; 25; 26; 27; 28; 33; 34; 35; 42; 45; 46; 47; 49; 50; 53; 54; 55; 56; 57; 58; 59; 60; 61; 62; 63; 64; 65; 67; 68; 69; 70; 71; 72; 73; 74; 75; 80; 105; 109; 110; 116; 131; 142; 151; 154; 162; 163; 168; 170; 171; 180; 183; 198; 199; 202; 209; 221; 227; 231; 238; 239; 244; 245; 248; 255];
   [2; 11; 14; 22; 25; 26; 27; 28; 33; 34; 35; 42; 45; 46; 47; 49; 50; 53; 54; 55; 56; 57; 58; 59; 60; 61; 62; 63; 64; 65; 67; 68; 69; 70; 71; 72; 73; 74; 75; 80; 105; 109; 110; 116; 131; 142; 146; 151; 154; 162; 163; 168; 170; 171; 180; 183; 194; 198; 199; 202; 209; 221; 227; 231; 238; 239; 244; 245; 248; 255];
   [2; 11; 14; 22; 25; 26; 27; 28; 33; 34; 35; 42; 45; 46; 47; 49; 50; 53; 54; 55; 56; 57; 58; 59; 60; 61; 62; 63; 64; 65; 67; 68; 69; 70; 71; 72; 73; 74; 75; 80; 105; 109; 110; 116; 131; 142; 146; 151; 154; 162; 163; 168; 170; 171; 180; 183; 194; 198; 199; 202; 209; 221; 227; 231; 238; 239; 244; 245; 248; 255];
   [2; 11; 14; 22; 25; 26; 27; 28; 33; 34; 35; 42; 45; 46; 47; 49; 50; 53; 54; 55; 56; 57; 58; 59; 60; 61; 62; 63; 64; 65; 67; 68; 69; 70; 71; 72; 73; 74; 75; 80; 105; 109; 110; 116; 131; 142; 146; 151; 154; 162; 163; 168; 170; 171; 180; 183; 194; 198; 199; 202; 209; 221; 227; 231; 238; 239; 244; 245; 248; 255];
   [2; 11; 14; 22; 25; 26; 27; 28; 33; 34; 35; 42; 45; 46; 47; 49; 50; 53; 54; 55; 56; 57; 58; 59; 60; 61; 62; 63; 64; 65; 67; 68; 69; 70; 71; 72; 73; 74; 75; 80; 105; 109; 110; 116; 131; 142; 146; 151; 154; 162; 163; 168; 170; 171; 180; 183; 194; 198; 199; 202; 209; 221; 227; 231; 238; 239; 244; 245; 248; 255];
   [2; 11; 14; 22; 25; 26; 27; 28; 33; 34; 35; 42; 45; 46; 47; 49; 50; 53; 54; 55; 56; 57; 58; 59; 60; 61; 62; 63; 64; 65; 67; 68; 69; 70; 71; 72; 73; 74; 75; 80; 105; 109; 110; 116; 131; 142; 146; 151; 154; 162; 163; 168; 170; 171; 180; 183; 194; 198; 199; 202; 209; 221; 227; 231; 238; 239; 244; 245; 248; 255];
   [2; 11; 14; 22; 25; 26; 27; 28; 33; 34; 35; 42; 45; 46; 47; 49; 50; 53; 54; 55; 56; 57; 58; 59; 60; 61; 62; 63; 64; 65; 67; 68; 69; 70; 71; 72; 73; 74; 75; 80; 105; 109; 110; 116; 131; 142; 146; 151; 154; 162; 163; 168; 170; 171; 180; 183; 194; 198; 199; 202; 209; 221; 227; 231; 238; 239; 244; 245; 248; 255];
   [2; 11; 14; 22; 24; 25; 26; 27; 28; 33; 34; 35; 42; 45; 46; 47; 49; 50; 53; 54; 55; 56; 57; 58; 59; 60; 61; 62; 63; 64; 65; 67; 68; 69; 70; 71; 72; 73; 74; 75; 80; 85; 86; 105; 109; 110; 116; 131; 141; 142; 146; 151; 153; 154; 162; 163; 168; 170; 171; 180; 183; 189; 190; 194; 198; 199; 202; 209; 221; 226; 227; 231; 236; 238; 239; 244; 245; 248; 255; 260];
   [2; 11; 14; 22; 25; 26; 27; 28; 33; 34; 35; 42; 45; 46; 47; 49; 50; 53; 54; 55; 56; 57; 58; 59; 60; 61; 62; 63; 64; 65; 67; 68; 69; 70; 71; 72; 73; 74; 75; 80; 105; 109; 110; 116; 131; 142; 146; 151; 154; 162; 163; 168; 170; 171; 180; 183; 194; 198; 199; 202; 209; 221; 227; 231; 238; 239; 244; 245; 248; 255];
   [2; 11; 14; 22; 25; 26; 27; 28; 33; 34; 35; 42; 45; 46; 47; 49; 50; 53; 54; 55; 56; 57; 58; 59; 60; 61; 62; 63; 64; 65; 67; 68; 69; 70; 71; 72; 73; 74; 75; 80; 105; 109; 110; 116; 131; 142; 146; 151; 154; 162; 163; 168; 170; 171; 180; 183; 194; 198; 199; 202; 209; 221; 227; 231; 238; 239; 244; 245; 248; 255];
   [2; 11; 14; 22; 25; 26; 27; 28; 33; 34; 35; 42; 45; 46; 47; 49; 50; 53; 54; 55; 56; 57; 58; 59; 60; 61; 62; 63; 64; 65; 67; 68; 69; 70; 71; 72; 73; 74; 75; 80; 105; 109; 110; 116; 131; 142; 146; 151; 154; 157; 162; 163; 168; 170; 171; 180; 183; 194; 198; 199; 202; 209; 221; 227; 231; 236; 238; 239; 244; 245; 248; 255; 260; 261];
   [6];
   [9];
   [10];
   [11];
   [11; 162];
   [13];
   [13];
   [13; 48; 77; 111; 112; 115; 149; 178];
   [14];
   [18];
   [19];
   [19];
   [19];
   [20; 93; 98; 101; 113; 114; 122; 123; 124; 125; 126; 127; 128; 129; 130; 132; 133; 134; 135; 136; 137; 138; 139; 140; 182; 196; 205; 211; 214; 216; 223; 232; 233; 235; 237; 243; 246; 253; 256; 257; 262];
   [20; 93; 98; 101; 113; 114; 122; 123; 124; 125; 126; 127; 128; 129; 130; 132; 133; 134; 135; 136; 137; 138; 139; 140; 182; 196; 205; 211; 214; 216; 223; 232; 233; 235; 237; 243; 246; 253; 256; 257; 262];
   [20; 93; 98; 101; 113; 114; 122; 123; 124; 125; 126; 127; 128; 129; 130; 132; 133; 134; 135; 136; 137; 138; 139; 140; 182; 196; 205; 211; 214; 216; 223; 232; 233; 235; 237; 243; 246; 253; 256; 257; 262];
   [20; 93; 98; 101; 113; 114; 122; 123; 124; 125; 126; 127; 128; 129; 130; 132; 133; 134; 135; 136; 137; 138; 139; 140; 182; 196; 205; 211; 214; 216; 223; 232; 233; 235; 237; 243; 246; 253; 256; 257; 262];
   [20; 93; 98; 101; 113; 114; 124; 125; 126; 127; 128; 129; 130; 132; 133; 134; 135; 136; 137; 138; 139; 140; 182; 196; 205; 211; 214; 216; 223; 232; 233; 235; 237; 243; 246; 253; 256; 257; 262];
   [20; 93; 98; 101; 113; 114; 124; 125; 126; 127; 128; 129; 130; 132; 133; 134; 135; 136; 137; 138; 139; 140; 182; 196; 205; 211; 214; 216; 223; 232; 233; 235; 237; 243; 246; 253; 256; 257; 262];
   [20; 93; 98; 101; 113; 114; 132; 133; 139; 140; 196; 205; 211; 214; 216; 223; 232; 233; 235; 237; 243; 246; 253; 256; 257; 262];
   [20; 93; 98; 101; 113; 114; 132; 133; 139; 140; 196; 205; 211; 214; 216; 223; 232; 233; 235; 237; 243; 246; 253; 256; 257; 262];
   [20; 93; 98; 101; 113; 114; 132; 133; 139; 140; 196; 205; 211; 214; 216; 223; 232; 233; 235; 237; 243; 246; 253; 256; 257; 262];
   [20; 93; 98; 101; 113; 114; 132; 133; 139; 140; 196; 205; 211; 214; 216; 223; 232; 233; 235; 237; 243; 246; 253; 256; 257; 262];
   [20; 93; 98; 101; 113; 114; 132; 133; 139; 140; 196; 205; 211; 214; 216; 223; 232; 233; 235; 237; 243; 246; 253; 256; 257; 262];
   [20; 93; 98; 101; 113; 114; 132; 133; 139; 140; 196; 205; 211; 214; 216; 223; 232; 233; 235; 237; 243; 246; 253; 256; 257; 262];
   [20; 93; 98; 101; 113; 114; 132; 133; 139; 140; 196; 205; 211; 214; 216; 223; 232; 233; 235; 237; 243; 246; 253; 256; 257; 262];
   [20; 93; 98; 101; 113; 114; 132; 133; 139; 140; 196; 205; 211; 214; 216; 223; 232; 233; 235; 237; 243; 246; 253; 256; 257; 262];
   [20; 93; 98; 101; 113; 114; 139; 140; 196; 205; 211; 214; 216; 223; 232; 233; 235; 237; 243; 246; 253; 256; 257; 262];
   [20; 93; 98; 101; 113; 114; 132; 139; 140; 196; 205; 211; 214; 216; 223; 232; 233; 235; 237; 243; 246; 253; 256; 257; 262];
   [20; 93; 98; 101; 113; 114; 124; 125; 126; 127; 128; 129; 130; 132; 133; 139; 140; 182; 196; 205; 211; 214; 216; 223; 232; 233; 235; 237; 243; 246; 253; 256; 257; 262];
   [20; 93; 98; 101; 113; 114; 124; 125; 126; 127; 128; 129; 130; 132; 133; 134; 136; 139; 140; 182; 196; 205; 211; 214; 216; 223; 232; 233; 235; 237; 243; 246; 253; 256; 257; 262];
   [20; 93; 98; 101; 113; 114; 124; 125; 126; 127; 128; 129; 130; 132; 133; 134; 139; 140; 182; 196; 205; 211; 214; 216; 223; 232; 233; 235; 237; 243; 246; 253; 256; 257; 262];
   [20; 93; 98; 101; 113; 114; 124; 125; 126; 127; 128; 129; 130; 132; 133; 134; 135; 136; 139; 140; 182; 196; 205; 211; 214; 216; 223; 232; 233; 235; 237; 243; 246; 253; 256; 257; 262];
   [20; 93; 98; 101; 113; 114; 124; 125; 126; 127; 128; 129; 130; 132; 133; 134; 135; 136; 139; 140; 182; 196; 205; 211; 214; 216; 223; 232; 233; 235; 237; 243; 246; 253; 256; 257; 262];
   [20; 93; 98; 101; 113; 114; 140; 196; 205; 211; 214; 216; 223; 232; 233; 235; 237; 243; 246; 253; 256; 257; 262];
   [20; 93; 98; 101; 114; 140; 196; 205; 211; 214; 216; 232; 233; 235; 243; 246; 256; 257; 262];
   [21];
   [22];
   [23; 44; 179];
   [23; 44; 179];
   [23; 44; 179];
   [24];
   [24];
   [24];
   [24; 153];
   [24; 153];
   [24; 153];
   [25];
   [26];
   [27];
   [28];
   [32];
   [33];
   [33];
   [33; 35];
   [34];
   [34];
   [34];
   [34];
   [34];
   [35];
   [35];
   [37];
   [38];
   [41];
   [41];
   [42];
   [42; 116; 142; 180; 221];
   [42; 116; 142; 180; 221];
   [43];
   [43; 210];
   [45];
   [46];
   [47];
   [49];
   [50];
   [51];
   [51];
   [53];
   [54];
   [55];
   [56];
   [57];
   [58];
   [59];
   [60];
   [61];
   [62];
   [63];
   [64];
   [65];
   [66];
   [67];
   [68];
   [69];
   [70];
   [71];
   [72];
   [73];
   [74];
   [75];
   [76];
   [77];
   [78];
   [79];
   [79];
   [79];
   [79; 91; 249];
   [79; 91; 94; 99; 145; 206];
   [80];
   [80];
   [81];
   [82];
   [82];
   [84; 188];
   [85];
   [86];
   [91];
   [92];
   [93];
   [93; 95];
   [93; 95; 159; 165];
   [93; 95; 159; 165];
   [94];
   [94];
   [95];
   [96];
   [97];
   [97];
   [97];
   [98; 216];
   [99];
   [100];
   [102];
   [104];
   [105];
   [107];
   [108];
   [109];
   [110];
   [115];
   [116];
   [131];
   [140];
   [141];
   [141];
   [141];
   [141; 226];
   [141; 226];
   [141; 226];
   [141; 226];
   [142];
   [144];
   [145];
   [145];
   [146];
   [146; 194];
   [146; 194];
   [146; 194];
   [146; 194];
   [147; 163; 168; 171; 194; 236];
   [149];
   [150];
   [151];
   [153];
   [154];
   [157];
   [159];
   [159; 165];
   [160; 208];
   [162];
   [163; 168];
   [165];
   [167];
   [170];
   [171];
   [171];
   [176];
   [176];
   [176];
   [177];
   [178];
   [180];
   [183];
   [184];
   [185];
   [185];
   [188];
   [189];
   [190];
   [194];
   [197];
   [198];
   [199];
   [202];
   [202; 248];
   [206];
   [209];
   [210];
   [217];
   [218];
   [221];
   [226];
   [227];
   [228];
   [229];
   [231];
   [234];
   [234];
   [236];
   [236];
   [236; 260];
   [236; 260];
   [238];
   [239];
   [243];
   [244];
   [245];
   [248];
   [249];
   [249];
   [252];
   [255];
   [258];
   [259];
   [260];
   [261]].
(** For each state how many reductions that do not use up a token-bearing entry may follow. *)
Definition chain_bound : list Z :=
  [1; 0; 0; 0; 0; 0; 0; 1; 1; 2; 0; 0; 2; 3; 3; 3; 3; 3; 1; 3; 4; 0; 0; 5; 1; 0; 0; 0; 0; 6; 6; 6; 0; 1; 1; 1; 7; 7; 0; 7; 0; 1; 0; 0; 1; 0; 0; 0; 0; 0; 0; 0; 1; 0; 0; 0; 0; 0; 0; 0; 0; 0; 0; 0; 0; 0; 0; 0; 0; 0; 0; 0; 0; 0; 0; 0; 0; 0; 0; 1; 1; 0; 1; 2; 3; 3; 0; 0; 0; 0; 0; 1; 0; 2; 1; 1; 0; 1; 2; 0; 0; 2; 0; 0; 0; 0; 0; 1; 2; 0; 0; 0; 0; 0; 0; 0; 0; 0; 0; 0; 0; 0; 0; 0; 0; 0; 0; 0; 0; 0; 0; 0; 0; 0; 0; 0; 0; 0; 0; 0; 0; 1; 0; 0; 0; 1; 0; 0; 1; 0; 0; 0; 0; 0; 0; 0; 0; 0; 0; 0; 1; 2; 0; 0; 0; 0; 0; 0; 0; 1; 0; 0; 0; 0; 0; 0; 0; 1; 0; 0; 0; 0; 0; 0; 0; 1; 2; 3; 4; 4; 0; 0; 0; 0; 0; 2; 3; 6; 0; 0; 0; 0; 1; 0; 0; 0; 0; 0; 0; 0; 0; 0; 0; 0; 0; 0; 0; 1; 0; 0; 0; 0; 0; 0; 0; 0; 0; 0; 0; 0; 0; 0; 0; 0; 0; 0; 0; 0; 0; 0; 0; 0; 0; 0; 0; 0; 0; 0; 1; 1; 2; 3; 0; 0; 0; 0; 0; 0; 0; 0; 1; 0; 0; 0; 0; 0; 0].
