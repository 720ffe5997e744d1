(** The serialised ATNs of the generated modules, copied by tools/gen_atn.py. *)
From Coq Require Import ZArith List.
Import ListNotations.
Local Open Scope Z_scope.
(** FCSLexer.py:11-103, [serializedATN()]: 2198 numbers *)
Definition lexer_words : list Z :=
  [4; 0; 25; 238; 6; -1; 2; 0; 7; 0; 2; 1; 7; 1; 2; 2; 7; 2; 2; 3; 7; 3; 2; 4; 7; 4; 2; 5; 7; 5; 2; 6; 7; 6; 2;
   7; 7; 7; 2; 8; 7; 8; 2; 9; 7; 9; 2; 10; 7; 10; 2; 11; 7; 11; 2; 12; 7; 12; 2; 13; 7; 13; 2; 14; 7; 14; 2; 15;
   7; 15; 2; 16; 7; 16; 2; 17; 7; 17; 2; 18; 7; 18; 2; 19; 7; 19; 2; 20; 7; 20; 2; 21; 7; 21; 2; 22; 7; 22; 2;
   23; 7; 23; 2; 24; 7; 24; 2; 25; 7; 25; 2; 26; 7; 26; 2; 27; 7; 27; 2; 28; 7; 28; 2; 29; 7; 29; 2; 30; 7; 30;
   2; 31; 7; 31; 1; 0; 1; 0; 1; 1; 1; 1; 1; 2; 1; 2; 1; 3; 1; 3; 1; 4; 1; 4; 1; 5; 1; 5; 1; 6; 1; 6; 1; 7; 1; 7;
   1; 8; 1; 8; 1; 9; 1; 9; 1; 10; 1; 10; 1; 11; 1; 11; 1; 12; 1; 12; 1; 13; 1; 13; 1; 14; 1; 14; 1; 15; 1; 15; 1;
   15; 1; 16; 1; 16; 1; 17; 1; 17; 1; 17; 1; 17; 1; 17; 1; 17; 1; 17; 1; 18; 1; 18; 1; 18; 1; 18; 1; 18; 1; 18;
   1; 18; 1; 18; 1; 18; 1; 18; 1; 18; 1; 18; 1; 18; 1; 18; 1; 18; 1; 18; 1; 18; 1; 18; 1; 18; 1; 18; 1; 18; 1;
   18; 1; 18; 1; 18; 1; 18; 1; 18; 1; 18; 1; 18; 1; 18; 1; 18; 1; 18; 1; 18; 1; 18; 1; 18; 1; 18; 1; 18; 1; 18;
   1; 18; 1; 18; 1; 18; 1; 18; 1; 18; 1; 18; 1; 18; 1; 18; 3; 18; 153; 8; 18; 1; 19; 4; 19; 156; 8; 19; 11; 19;
   12; 19; 157; 1; 20; 1; 20; 1; 21; 1; 21; 1; 22; 1; 22; 1; 23; 1; 23; 5; 23; 168; 8; 23; 10; 23; 12; 23; 171;
   9; 23; 1; 23; 3; 23; 174; 8; 23; 1; 24; 4; 24; 177; 8; 24; 11; 24; 12; 24; 178; 1; 25; 1; 25; 1; 26; 1; 26; 1;
   26; 5; 26; 186; 8; 26; 10; 26; 12; 26; 189; 9; 26; 1; 26; 1; 26; 1; 26; 1; 26; 5; 26; 195; 8; 26; 10; 26; 12;
   26; 198; 9; 26; 1; 26; 3; 26; 201; 8; 26; 1; 27; 1; 27; 3; 27; 205; 8; 27; 1; 28; 1; 28; 1; 29; 1; 29; 1; 29;
   1; 29; 1; 29; 1; 29; 1; 29; 1; 29; 1; 29; 1; 29; 1; 29; 1; 29; 1; 29; 1; 29; 1; 29; 1; 29; 1; 29; 1; 29; 1;
   29; 1; 29; 1; 29; 1; 29; 3; 29; 231; 8; 29; 1; 30; 1; 30; 1; 31; 1; 31; 1; 31; 1; 31; 0; 0; 32; 1; 1; 3; 2; 5;
   3; 7; 4; 9; 5; 11; 6; 13; 7; 15; 8; 17; 9; 19; 10; 21; 11; 23; 12; 25; 13; 27; 14; 29; 15; 31; 16; 33; 17; 35;
   18; 37; 19; 39; 20; 41; 0; 43; 0; 45; 0; 47; 21; 49; 22; 51; 23; 53; 24; 55; 0; 57; 0; 59; 0; 61; 0; 63; 25;
   1; 0; 10; 5; 0; 67; 67; 73; 73; 99; 100; 105; 105; 108; 108; 2; 0; 65; 90; 97; 122; 3; 0; 48; 57; 65; 90; 97;
   122; 4; 0; 45; 45; 48; 57; 65; 90; 97; 122; 1; 0; 48; 57; 2; 0; 39; 39; 92; 92; 2; 0; 34; 34; 92; 92; 10; 0;
   9; 13; 32; 32; 133; 133; 160; 160; 5760; 5760; 8192; 8202; 8232; 8233; 8239; 8239; 8287; 8287; 12288; 12288;
   9; 0; 34; 34; 36; 36; 39; 43; 46; 46; 63; 63; 91; 94; 110; 110; 116; 116; 123; 125; 3; 0; 48; 57; 65; 70; 97;
   102; 252; 0; 1; 1; 0; 0; 0; 0; 3; 1; 0; 0; 0; 0; 5; 1; 0; 0; 0; 0; 7; 1; 0; 0; 0; 0; 9; 1; 0; 0; 0; 0; 11; 1;
   0; 0; 0; 0; 13; 1; 0; 0; 0; 0; 15; 1; 0; 0; 0; 0; 17; 1; 0; 0; 0; 0; 19; 1; 0; 0; 0; 0; 21; 1; 0; 0; 0; 0; 23;
   1; 0; 0; 0; 0; 25; 1; 0; 0; 0; 0; 27; 1; 0; 0; 0; 0; 29; 1; 0; 0; 0; 0; 31; 1; 0; 0; 0; 0; 33; 1; 0; 0; 0; 0;
   35; 1; 0; 0; 0; 0; 37; 1; 0; 0; 0; 0; 39; 1; 0; 0; 0; 0; 47; 1; 0; 0; 0; 0; 49; 1; 0; 0; 0; 0; 51; 1; 0; 0; 0;
   0; 53; 1; 0; 0; 0; 0; 63; 1; 0; 0; 0; 1; 65; 1; 0; 0; 0; 3; 67; 1; 0; 0; 0; 5; 69; 1; 0; 0; 0; 7; 71; 1; 0; 0;
   0; 9; 73; 1; 0; 0; 0; 11; 75; 1; 0; 0; 0; 13; 77; 1; 0; 0; 0; 15; 79; 1; 0; 0; 0; 17; 81; 1; 0; 0; 0; 19; 83;
   1; 0; 0; 0; 21; 85; 1; 0; 0; 0; 23; 87; 1; 0; 0; 0; 25; 89; 1; 0; 0; 0; 27; 91; 1; 0; 0; 0; 29; 93; 1; 0; 0;
   0; 31; 95; 1; 0; 0; 0; 33; 98; 1; 0; 0; 0; 35; 100; 1; 0; 0; 0; 37; 152; 1; 0; 0; 0; 39; 155; 1; 0; 0; 0; 41;
   159; 1; 0; 0; 0; 43; 161; 1; 0; 0; 0; 45; 163; 1; 0; 0; 0; 47; 165; 1; 0; 0; 0; 49; 176; 1; 0; 0; 0; 51; 180;
   1; 0; 0; 0; 53; 200; 1; 0; 0; 0; 55; 204; 1; 0; 0; 0; 57; 206; 1; 0; 0; 0; 59; 208; 1; 0; 0; 0; 61; 232; 1; 0;
   0; 0; 63; 234; 1; 0; 0; 0; 65; 66; 5; 40; 0; 0; 66; 2; 1; 0; 0; 0; 67; 68; 5; 41; 0; 0; 68; 4; 1; 0; 0; 0; 69;
   70; 5; 91; 0; 0; 70; 6; 1; 0; 0; 0; 71; 72; 5; 93; 0; 0; 72; 8; 1; 0; 0; 0; 73; 74; 5; 124; 0; 0; 74; 10; 1;
   0; 0; 0; 75; 76; 5; 38; 0; 0; 76; 12; 1; 0; 0; 0; 77; 78; 5; 33; 0; 0; 78; 14; 1; 0; 0; 0; 79; 80; 5; 47; 0;
   0; 80; 16; 1; 0; 0; 0; 81; 82; 5; 123; 0; 0; 82; 18; 1; 0; 0; 0; 83; 84; 5; 125; 0; 0; 84; 20; 1; 0; 0; 0; 85;
   86; 5; 43; 0; 0; 86; 22; 1; 0; 0; 0; 87; 88; 5; 42; 0; 0; 88; 24; 1; 0; 0; 0; 89; 90; 5; 63; 0; 0; 90; 26; 1;
   0; 0; 0; 91; 92; 5; 44; 0; 0; 92; 28; 1; 0; 0; 0; 93; 94; 5; 61; 0; 0; 94; 30; 1; 0; 0; 0; 95; 96; 5; 33; 0;
   0; 96; 97; 5; 61; 0; 0; 97; 32; 1; 0; 0; 0; 98; 99; 5; 58; 0; 0; 99; 34; 1; 0; 0; 0; 100; 101; 5; 119; 0; 0;
   101; 102; 5; 105; 0; 0; 102; 103; 5; 116; 0; 0; 103; 104; 5; 104; 0; 0; 104; 105; 5; 105; 0; 0; 105; 106; 5;
   110; 0; 0; 106; 36; 1; 0; 0; 0; 107; 108; 5; 115; 0; 0; 108; 109; 5; 101; 0; 0; 109; 110; 5; 110; 0; 0; 110;
   111; 5; 116; 0; 0; 111; 112; 5; 101; 0; 0; 112; 113; 5; 110; 0; 0; 113; 114; 5; 99; 0; 0; 114; 153; 5; 101; 0;
   0; 115; 153; 5; 115; 0; 0; 116; 117; 5; 117; 0; 0; 117; 118; 5; 116; 0; 0; 118; 119; 5; 116; 0; 0; 119; 120;
   5; 101; 0; 0; 120; 121; 5; 114; 0; 0; 121; 122; 5; 97; 0; 0; 122; 123; 5; 110; 0; 0; 123; 124; 5; 99; 0; 0;
   124; 153; 5; 101; 0; 0; 125; 153; 5; 117; 0; 0; 126; 127; 5; 112; 0; 0; 127; 128; 5; 97; 0; 0; 128; 129; 5;
   114; 0; 0; 129; 130; 5; 97; 0; 0; 130; 131; 5; 103; 0; 0; 131; 132; 5; 114; 0; 0; 132; 133; 5; 97; 0; 0; 133;
   134; 5; 112; 0; 0; 134; 153; 5; 104; 0; 0; 135; 153; 5; 112; 0; 0; 136; 137; 5; 116; 0; 0; 137; 138; 5; 117;
   0; 0; 138; 139; 5; 114; 0; 0; 139; 153; 5; 110; 0; 0; 140; 153; 5; 116; 0; 0; 141; 142; 5; 116; 0; 0; 142;
   143; 5; 101; 0; 0; 143; 144; 5; 120; 0; 0; 144; 153; 5; 116; 0; 0; 145; 146; 5; 115; 0; 0; 146; 147; 5; 101;
   0; 0; 147; 148; 5; 115; 0; 0; 148; 149; 5; 115; 0; 0; 149; 150; 5; 105; 0; 0; 150; 151; 5; 111; 0; 0; 151;
   153; 5; 110; 0; 0; 152; 107; 1; 0; 0; 0; 152; 115; 1; 0; 0; 0; 152; 116; 1; 0; 0; 0; 152; 125; 1; 0; 0; 0;
   152; 126; 1; 0; 0; 0; 152; 135; 1; 0; 0; 0; 152; 136; 1; 0; 0; 0; 152; 140; 1; 0; 0; 0; 152; 141; 1; 0; 0; 0;
   152; 145; 1; 0; 0; 0; 153; 38; 1; 0; 0; 0; 154; 156; 7; 0; 0; 0; 155; 154; 1; 0; 0; 0; 156; 157; 1; 0; 0; 0;
   157; 155; 1; 0; 0; 0; 157; 158; 1; 0; 0; 0; 158; 40; 1; 0; 0; 0; 159; 160; 7; 1; 0; 0; 160; 42; 1; 0; 0; 0;
   161; 162; 7; 2; 0; 0; 162; 44; 1; 0; 0; 0; 163; 164; 7; 3; 0; 0; 164; 46; 1; 0; 0; 0; 165; 173; 3; 41; 20; 0;
   166; 168; 3; 45; 22; 0; 167; 166; 1; 0; 0; 0; 168; 171; 1; 0; 0; 0; 169; 167; 1; 0; 0; 0; 169; 170; 1; 0; 0;
   0; 170; 172; 1; 0; 0; 0; 171; 169; 1; 0; 0; 0; 172; 174; 3; 43; 21; 0; 173; 169; 1; 0; 0; 0; 173; 174; 1; 0;
   0; 0; 174; 48; 1; 0; 0; 0; 175; 177; 7; 4; 0; 0; 176; 175; 1; 0; 0; 0; 177; 178; 1; 0; 0; 0; 178; 176; 1; 0;
   0; 0; 178; 179; 1; 0; 0; 0; 179; 50; 1; 0; 0; 0; 180; 181; 3; 53; 26; 0; 181; 52; 1; 0; 0; 0; 182; 187; 5; 39;
   0; 0; 183; 186; 3; 59; 29; 0; 184; 186; 8; 5; 0; 0; 185; 183; 1; 0; 0; 0; 185; 184; 1; 0; 0; 0; 186; 189; 1;
   0; 0; 0; 187; 185; 1; 0; 0; 0; 187; 188; 1; 0; 0; 0; 188; 190; 1; 0; 0; 0; 189; 187; 1; 0; 0; 0; 190; 201; 5;
   39; 0; 0; 191; 196; 5; 34; 0; 0; 192; 195; 3; 59; 29; 0; 193; 195; 8; 6; 0; 0; 194; 192; 1; 0; 0; 0; 194; 193;
   1; 0; 0; 0; 195; 198; 1; 0; 0; 0; 196; 194; 1; 0; 0; 0; 196; 197; 1; 0; 0; 0; 197; 199; 1; 0; 0; 0; 198; 196;
   1; 0; 0; 0; 199; 201; 5; 34; 0; 0; 200; 182; 1; 0; 0; 0; 200; 191; 1; 0; 0; 0; 201; 54; 1; 0; 0; 0; 202; 205;
   3; 59; 29; 0; 203; 205; 8; 7; 0; 0; 204; 202; 1; 0; 0; 0; 204; 203; 1; 0; 0; 0; 205; 56; 1; 0; 0; 0; 206; 207;
   7; 7; 0; 0; 207; 58; 1; 0; 0; 0; 208; 230; 5; 92; 0; 0; 209; 231; 7; 8; 0; 0; 210; 211; 5; 120; 0; 0; 211;
   212; 3; 61; 30; 0; 212; 213; 3; 61; 30; 0; 213; 231; 1; 0; 0; 0; 214; 215; 5; 117; 0; 0; 215; 216; 3; 61; 30;
   0; 216; 217; 3; 61; 30; 0; 217; 218; 3; 61; 30; 0; 218; 219; 3; 61; 30; 0; 219; 231; 1; 0; 0; 0; 220; 221; 5;
   85; 0; 0; 221; 222; 3; 61; 30; 0; 222; 223; 3; 61; 30; 0; 223; 224; 3; 61; 30; 0; 224; 225; 3; 61; 30; 0; 225;
   226; 3; 61; 30; 0; 226; 227; 3; 61; 30; 0; 227; 228; 3; 61; 30; 0; 228; 229; 3; 61; 30; 0; 229; 231; 1; 0; 0;
   0; 230; 209; 1; 0; 0; 0; 230; 210; 1; 0; 0; 0; 230; 214; 1; 0; 0; 0; 230; 220; 1; 0; 0; 0; 231; 60; 1; 0; 0;
   0; 232; 233; 7; 9; 0; 0; 233; 62; 1; 0; 0; 0; 234; 235; 3; 57; 28; 0; 235; 236; 1; 0; 0; 0; 236; 237; 6; 31;
   0; 0; 237; 64; 1; 0; 0; 0; 13; 0; 152; 157; 169; 173; 178; 185; 187; 194; 196; 200; 204; 230; 1; 6; 0; 0].
(** FCSParser.py:11-91, [serializedATN()]: 1943 numbers *)
Definition parser_words : list Z :=
  [4; 1; 25; 211; 2; 0; 7; 0; 2; 1; 7; 1; 2; 2; 7; 2; 2; 3; 7; 3; 2; 4; 7; 4; 2; 5; 7; 5; 2; 6; 7; 6; 2; 7; 7; 7;
   2; 8; 7; 8; 2; 9; 7; 9; 2; 10; 7; 10; 2; 11; 7; 11; 2; 12; 7; 12; 2; 13; 7; 13; 2; 14; 7; 14; 2; 15; 7; 15; 2;
   16; 7; 16; 2; 17; 7; 17; 2; 18; 7; 18; 2; 19; 7; 19; 2; 20; 7; 20; 2; 21; 7; 21; 2; 22; 7; 22; 1; 0; 1; 0; 1;
   0; 3; 0; 50; 8; 0; 1; 0; 1; 0; 1; 1; 1; 1; 1; 1; 1; 1; 3; 1; 58; 8; 1; 1; 2; 1; 2; 1; 2; 3; 2; 63; 8; 2; 1; 2;
   1; 2; 1; 2; 1; 2; 3; 2; 69; 8; 2; 4; 2; 71; 8; 2; 11; 2; 12; 2; 72; 1; 3; 1; 3; 4; 3; 77; 8; 3; 11; 3; 12; 3;
   78; 1; 4; 1; 4; 1; 4; 3; 4; 84; 8; 4; 1; 4; 1; 4; 3; 4; 88; 8; 4; 1; 5; 1; 5; 3; 5; 92; 8; 5; 1; 5; 3; 5; 95;
   8; 5; 1; 6; 1; 6; 1; 6; 1; 6; 1; 6; 1; 6; 3; 6; 103; 8; 6; 1; 6; 1; 6; 1; 6; 1; 6; 1; 6; 3; 6; 110; 8; 6; 3;
   6; 112; 8; 6; 1; 6; 3; 6; 115; 8; 6; 1; 7; 1; 7; 1; 8; 1; 8; 3; 8; 121; 8; 8; 1; 8; 1; 8; 1; 9; 1; 9; 1; 10;
   1; 10; 1; 11; 1; 11; 1; 11; 1; 11; 1; 11; 3; 11; 134; 8; 11; 1; 12; 1; 12; 1; 12; 1; 12; 3; 12; 140; 8; 12; 1;
   12; 1; 12; 1; 12; 1; 12; 1; 12; 3; 12; 147; 8; 12; 4; 12; 149; 8; 12; 11; 12; 12; 12; 150; 1; 13; 1; 13; 1;
   13; 3; 13; 156; 8; 13; 1; 13; 1; 13; 1; 13; 1; 13; 1; 13; 3; 13; 163; 8; 13; 4; 13; 165; 8; 13; 11; 13; 12;
   13; 166; 1; 14; 1; 14; 1; 14; 1; 14; 1; 14; 1; 14; 3; 14; 175; 8; 14; 1; 14; 1; 14; 1; 15; 1; 15; 1; 15; 1;
   15; 1; 15; 1; 15; 3; 15; 185; 8; 15; 1; 16; 1; 16; 1; 16; 1; 16; 1; 17; 1; 17; 1; 17; 3; 17; 194; 8; 17; 1;
   17; 1; 17; 1; 18; 1; 18; 1; 19; 1; 19; 1; 20; 1; 20; 1; 20; 3; 20; 205; 8; 20; 1; 21; 1; 21; 1; 22; 1; 22; 1;
   22; 0; 0; 23; 0; 2; 4; 6; 8; 10; 12; 14; 16; 18; 20; 22; 24; 26; 28; 30; 32; 34; 36; 38; 40; 42; 44; 0; 2; 1;
   0; 15; 16; 1; 0; 18; 21; 237; 0; 46; 1; 0; 0; 0; 2; 57; 1; 0; 0; 0; 4; 62; 1; 0; 0; 0; 6; 76; 1; 0; 0; 0; 8;
   80; 1; 0; 0; 0; 10; 91; 1; 0; 0; 0; 12; 114; 1; 0; 0; 0; 14; 116; 1; 0; 0; 0; 16; 118; 1; 0; 0; 0; 18; 124; 1;
   0; 0; 0; 20; 126; 1; 0; 0; 0; 22; 133; 1; 0; 0; 0; 24; 139; 1; 0; 0; 0; 26; 155; 1; 0; 0; 0; 28; 168; 1; 0; 0;
   0; 30; 178; 1; 0; 0; 0; 32; 186; 1; 0; 0; 0; 34; 193; 1; 0; 0; 0; 36; 197; 1; 0; 0; 0; 38; 199; 1; 0; 0; 0;
   40; 201; 1; 0; 0; 0; 42; 206; 1; 0; 0; 0; 44; 208; 1; 0; 0; 0; 46; 49; 3; 2; 1; 0; 47; 48; 5; 18; 0; 0; 48;
   50; 3; 18; 9; 0; 49; 47; 1; 0; 0; 0; 49; 50; 1; 0; 0; 0; 50; 51; 1; 0; 0; 0; 51; 52; 5; 0; 0; 1; 52; 1; 1; 0;
   0; 0; 53; 58; 3; 10; 5; 0; 54; 58; 3; 8; 4; 0; 55; 58; 3; 6; 3; 0; 56; 58; 3; 4; 2; 0; 57; 53; 1; 0; 0; 0; 57;
   54; 1; 0; 0; 0; 57; 55; 1; 0; 0; 0; 57; 56; 1; 0; 0; 0; 58; 3; 1; 0; 0; 0; 59; 63; 3; 10; 5; 0; 60; 63; 3; 6;
   3; 0; 61; 63; 3; 8; 4; 0; 62; 59; 1; 0; 0; 0; 62; 60; 1; 0; 0; 0; 62; 61; 1; 0; 0; 0; 63; 70; 1; 0; 0; 0; 64;
   68; 5; 5; 0; 0; 65; 69; 3; 10; 5; 0; 66; 69; 3; 6; 3; 0; 67; 69; 3; 8; 4; 0; 68; 65; 1; 0; 0; 0; 68; 66; 1; 0;
   0; 0; 68; 67; 1; 0; 0; 0; 69; 71; 1; 0; 0; 0; 70; 64; 1; 0; 0; 0; 71; 72; 1; 0; 0; 0; 72; 70; 1; 0; 0; 0; 72;
   73; 1; 0; 0; 0; 73; 5; 1; 0; 0; 0; 74; 77; 3; 10; 5; 0; 75; 77; 3; 8; 4; 0; 76; 74; 1; 0; 0; 0; 76; 75; 1; 0;
   0; 0; 77; 78; 1; 0; 0; 0; 78; 76; 1; 0; 0; 0; 78; 79; 1; 0; 0; 0; 79; 7; 1; 0; 0; 0; 80; 83; 5; 1; 0; 0; 81;
   84; 3; 4; 2; 0; 82; 84; 3; 6; 3; 0; 83; 81; 1; 0; 0; 0; 83; 82; 1; 0; 0; 0; 84; 85; 1; 0; 0; 0; 85; 87; 5; 2;
   0; 0; 86; 88; 3; 12; 6; 0; 87; 86; 1; 0; 0; 0; 87; 88; 1; 0; 0; 0; 88; 9; 1; 0; 0; 0; 89; 92; 3; 14; 7; 0; 90;
   92; 3; 16; 8; 0; 91; 89; 1; 0; 0; 0; 91; 90; 1; 0; 0; 0; 92; 94; 1; 0; 0; 0; 93; 95; 3; 12; 6; 0; 94; 93; 1;
   0; 0; 0; 94; 95; 1; 0; 0; 0; 95; 11; 1; 0; 0; 0; 96; 115; 5; 11; 0; 0; 97; 115; 5; 12; 0; 0; 98; 115; 5; 13;
   0; 0; 99; 111; 5; 9; 0; 0; 100; 112; 5; 22; 0; 0; 101; 103; 5; 22; 0; 0; 102; 101; 1; 0; 0; 0; 102; 103; 1; 0;
   0; 0; 103; 104; 1; 0; 0; 0; 104; 105; 5; 14; 0; 0; 105; 112; 5; 22; 0; 0; 106; 107; 5; 22; 0; 0; 107; 109; 5;
   14; 0; 0; 108; 110; 5; 22; 0; 0; 109; 108; 1; 0; 0; 0; 109; 110; 1; 0; 0; 0; 110; 112; 1; 0; 0; 0; 111; 100;
   1; 0; 0; 0; 111; 102; 1; 0; 0; 0; 111; 106; 1; 0; 0; 0; 112; 113; 1; 0; 0; 0; 113; 115; 5; 10; 0; 0; 114; 96;
   1; 0; 0; 0; 114; 97; 1; 0; 0; 0; 114; 98; 1; 0; 0; 0; 114; 99; 1; 0; 0; 0; 115; 13; 1; 0; 0; 0; 116; 117; 3;
   40; 20; 0; 117; 15; 1; 0; 0; 0; 118; 120; 5; 3; 0; 0; 119; 121; 3; 22; 11; 0; 120; 119; 1; 0; 0; 0; 120; 121;
   1; 0; 0; 0; 121; 122; 1; 0; 0; 0; 122; 123; 5; 4; 0; 0; 123; 17; 1; 0; 0; 0; 124; 125; 3; 20; 10; 0; 125; 19;
   1; 0; 0; 0; 126; 127; 5; 19; 0; 0; 127; 21; 1; 0; 0; 0; 128; 134; 3; 32; 16; 0; 129; 134; 3; 28; 14; 0; 130;
   134; 3; 24; 12; 0; 131; 134; 3; 26; 13; 0; 132; 134; 3; 30; 15; 0; 133; 128; 1; 0; 0; 0; 133; 129; 1; 0; 0; 0;
   133; 130; 1; 0; 0; 0; 133; 131; 1; 0; 0; 0; 133; 132; 1; 0; 0; 0; 134; 23; 1; 0; 0; 0; 135; 140; 3; 32; 16; 0;
   136; 140; 3; 28; 14; 0; 137; 140; 3; 26; 13; 0; 138; 140; 3; 30; 15; 0; 139; 135; 1; 0; 0; 0; 139; 136; 1; 0;
   0; 0; 139; 137; 1; 0; 0; 0; 139; 138; 1; 0; 0; 0; 140; 148; 1; 0; 0; 0; 141; 146; 5; 5; 0; 0; 142; 147; 3; 32;
   16; 0; 143; 147; 3; 28; 14; 0; 144; 147; 3; 26; 13; 0; 145; 147; 3; 30; 15; 0; 146; 142; 1; 0; 0; 0; 146; 143;
   1; 0; 0; 0; 146; 144; 1; 0; 0; 0; 146; 145; 1; 0; 0; 0; 147; 149; 1; 0; 0; 0; 148; 141; 1; 0; 0; 0; 149; 150;
   1; 0; 0; 0; 150; 148; 1; 0; 0; 0; 150; 151; 1; 0; 0; 0; 151; 25; 1; 0; 0; 0; 152; 156; 3; 32; 16; 0; 153; 156;
   3; 28; 14; 0; 154; 156; 3; 30; 15; 0; 155; 152; 1; 0; 0; 0; 155; 153; 1; 0; 0; 0; 155; 154; 1; 0; 0; 0; 156;
   164; 1; 0; 0; 0; 157; 162; 5; 6; 0; 0; 158; 163; 3; 32; 16; 0; 159; 163; 3; 28; 14; 0; 160; 163; 3; 24; 12; 0;
   161; 163; 3; 30; 15; 0; 162; 158; 1; 0; 0; 0; 162; 159; 1; 0; 0; 0; 162; 160; 1; 0; 0; 0; 162; 161; 1; 0; 0;
   0; 163; 165; 1; 0; 0; 0; 164; 157; 1; 0; 0; 0; 165; 166; 1; 0; 0; 0; 166; 164; 1; 0; 0; 0; 166; 167; 1; 0; 0;
   0; 167; 27; 1; 0; 0; 0; 168; 174; 5; 1; 0; 0; 169; 175; 3; 32; 16; 0; 170; 175; 3; 28; 14; 0; 171; 175; 3; 24;
   12; 0; 172; 175; 3; 26; 13; 0; 173; 175; 3; 30; 15; 0; 174; 169; 1; 0; 0; 0; 174; 170; 1; 0; 0; 0; 174; 171;
   1; 0; 0; 0; 174; 172; 1; 0; 0; 0; 174; 173; 1; 0; 0; 0; 175; 176; 1; 0; 0; 0; 176; 177; 5; 2; 0; 0; 177; 29;
   1; 0; 0; 0; 178; 184; 5; 7; 0; 0; 179; 185; 3; 32; 16; 0; 180; 185; 3; 28; 14; 0; 181; 185; 3; 30; 15; 0; 182;
   185; 3; 24; 12; 0; 183; 185; 3; 26; 13; 0; 184; 179; 1; 0; 0; 0; 184; 180; 1; 0; 0; 0; 184; 181; 1; 0; 0; 0;
   184; 182; 1; 0; 0; 0; 184; 183; 1; 0; 0; 0; 185; 31; 1; 0; 0; 0; 186; 187; 3; 34; 17; 0; 187; 188; 7; 0; 0; 0;
   188; 189; 3; 40; 20; 0; 189; 33; 1; 0; 0; 0; 190; 191; 3; 36; 18; 0; 191; 192; 5; 17; 0; 0; 192; 194; 1; 0; 0;
   0; 193; 190; 1; 0; 0; 0; 193; 194; 1; 0; 0; 0; 194; 195; 1; 0; 0; 0; 195; 196; 3; 38; 19; 0; 196; 35; 1; 0; 0;
   0; 197; 198; 7; 1; 0; 0; 198; 37; 1; 0; 0; 0; 199; 200; 7; 1; 0; 0; 200; 39; 1; 0; 0; 0; 201; 204; 3; 42; 21;
   0; 202; 203; 5; 8; 0; 0; 203; 205; 3; 44; 22; 0; 204; 202; 1; 0; 0; 0; 204; 205; 1; 0; 0; 0; 205; 41; 1; 0; 0;
   0; 206; 207; 5; 23; 0; 0; 207; 43; 1; 0; 0; 0; 208; 209; 5; 20; 0; 0; 209; 45; 1; 0; 0; 0; 27; 49; 57; 62; 68;
   72; 76; 78; 83; 87; 91; 94; 102; 109; 111; 114; 120; 133; 139; 146; 150; 155; 162; 166; 174; 184; 193; 204].
