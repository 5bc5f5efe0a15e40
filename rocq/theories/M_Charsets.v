(** Model of the one-byte character sets of tiniconv: tiniconv/encdec/*.h for ascii, cp1250 to
    cp1254, cp1256, cp1257, cp866, iso8859_1 to iso8859_11, iso8859_13 to iso8859_16, koi8_r,
    koi8_ru, koi8_u and mac_cyrillic.  Every xxx_mbtowc is a chain of tests on the byte, every
    xxx_wctomb one on the character; a chain is a list of ranges here.  The tables are those of
    the headers.  A byte and a character are numbers. *)
From Coq Require Import List ZArith Bool.
Import ListNotations.
Open Scope Z_scope.

(** What a branch of xxx_mbtowc does with the byte c: *pwc = c; *pwc = c + k; *pwc = table[c-base],
    where the flag says whether 0xfffd is refused; return RET_ILSEQ. *)
Inductive dkind := DSame | DAdd (k : Z) | DTab (checked : bool) (base : Z) (t : list Z) | DBad.
(** What a branch of xxx_wctomb does with the character wc: c = wc; c = wc - k; c = page[wc-lo];
    c = a constant. *)
Inductive ekind := ESame | ESub (k : Z) | EPage (t : list Z) | EConst (c : Z).
Record charset := { cs_dec : list (Z * dkind); cs_direct : Z; cs_enc : list (Z * Z * ekind) }.

(** An answer, a refusal (RET_ILSEQ, RET_ILUNI) or a read beyond the end of a table. *)
Inductive answer := Value (v : Z) | Refused | Beyond.

Definition read_table (t : list Z) (i : Z) : answer :=
  if i <? 0 then Beyond else match nth_error t (Z.to_nat i) with Some v => Value v | None => Beyond end.

(** The chain of tests of xxx_mbtowc: the first range with c below its upper end. *)
Fixpoint decode_in (l : list (Z * dkind)) (c : Z) : answer :=
  match l with
  | [] => Refused
  | (hi, k) :: l' =>
    if c <? hi then
      match k with
      | DSame => Value c
      | DAdd a => Value (c + a)
      | DTab checked base t =>
        match read_table t (c - base) with
        | Value v => if checked && (v =? 0xfffd) then Refused else Value v
        | x => x
        end
      | DBad => Refused
      end
    else decode_in l' c
  end.
Definition mbtowc (cs : charset) (c : Z) : answer := decode_in (cs_dec cs) c.

(** The chain of tests of xxx_wctomb: below the first bound the character itself is written;
    otherwise c is set in the first range that holds wc, and 0 is a refusal.  A value is stored
    in an unsigned char. *)
Fixpoint encode_in (l : list (Z * Z * ekind)) (wc : Z) : answer :=
  match l with
  | [] => Value 0
  | ((lo, hi), k) :: l' =>
    if (lo <=? wc) && (wc <? hi) then
      match k with
      | ESame => Value wc
      | ESub a => Value (wc - a)
      | EPage t => read_table t (wc - lo)
      | EConst c => Value c
      end
    else encode_in l' wc
  end.
Definition wctomb (cs : charset) (wc : Z) : answer :=
  if wc <? cs_direct cs then Value (wc mod 256)
  else match encode_in (cs_enc cs) wc with
       | Value c => if c mod 256 =? 0 then Refused else Value (c mod 256)
       | x => x
       end.

(** cp1250.h lines 25-50 *)
Definition cp1250_2uni : list Z :=
  [0x20ac; 0xfffd; 0x201a; 0xfffd; 0x201e; 0x2026; 0x2020; 0x2021; 0xfffd; 0x2030; 0x0160; 0x2039; 0x015a; 0x0164; 0x017d; 0x0179;
   0xfffd; 0x2018; 0x2019; 0x201c; 0x201d; 0x2022; 0x2013; 0x2014; 0xfffd; 0x2122; 0x0161; 0x203a; 0x015b; 0x0165; 0x017e; 0x017a;
   0x00a0; 0x02c7; 0x02d8; 0x0141; 0x00a4; 0x0104; 0x00a6; 0x00a7; 0x00a8; 0x00a9; 0x015e; 0x00ab; 0x00ac; 0x00ad; 0x00ae; 0x017b;
   0x00b0; 0x00b1; 0x02db; 0x0142; 0x00b4; 0x00b5; 0x00b6; 0x00b7; 0x00b8; 0x0105; 0x015f; 0x00bb; 0x013d; 0x02dd; 0x013e; 0x017c;
   0x0154; 0x00c1; 0x00c2; 0x0102; 0x00c4; 0x0139; 0x0106; 0x00c7; 0x010c; 0x00c9; 0x0118; 0x00cb; 0x011a; 0x00cd; 0x00ce; 0x010e;
   0x0110; 0x0143; 0x0147; 0x00d3; 0x00d4; 0x0150; 0x00d6; 0x00d7; 0x0158; 0x016e; 0x00da; 0x0170; 0x00dc; 0x00dd; 0x0162; 0x00df;
   0x0155; 0x00e1; 0x00e2; 0x0103; 0x00e4; 0x013a; 0x0107; 0x00e7; 0x010d; 0x00e9; 0x0119; 0x00eb; 0x011b; 0x00ed; 0x00ee; 0x010f;
   0x0111; 0x0144; 0x0148; 0x00f3; 0x00f4; 0x0151; 0x00f6; 0x00f7; 0x0159; 0x016f; 0x00fa; 0x0171; 0x00fc; 0x00fd; 0x0163; 0x02d9].
(** cp1250.h lines 70-100 *)
Definition cp1250_page00 : list Z :=
  [0xa0; 0x00; 0x00; 0x00; 0xa4; 0x00; 0xa6; 0xa7; 0xa8; 0xa9; 0x00; 0xab; 0xac; 0xad; 0xae; 0x00;
   0xb0; 0xb1; 0x00; 0x00; 0xb4; 0xb5; 0xb6; 0xb7; 0xb8; 0x00; 0x00; 0xbb; 0x00; 0x00; 0x00; 0x00;
   0x00; 0xc1; 0xc2; 0x00; 0xc4; 0x00; 0x00; 0xc7; 0x00; 0xc9; 0x00; 0xcb; 0x00; 0xcd; 0xce; 0x00;
   0x00; 0x00; 0x00; 0xd3; 0xd4; 0x00; 0xd6; 0xd7; 0x00; 0x00; 0xda; 0x00; 0xdc; 0xdd; 0x00; 0xdf;
   0x00; 0xe1; 0xe2; 0x00; 0xe4; 0x00; 0x00; 0xe7; 0x00; 0xe9; 0x00; 0xeb; 0x00; 0xed; 0xee; 0x00;
   0x00; 0x00; 0x00; 0xf3; 0xf4; 0x00; 0xf6; 0xf7; 0x00; 0x00; 0xfa; 0x00; 0xfc; 0xfd; 0x00; 0x00;
   0x00; 0x00; 0xc3; 0xe3; 0xa5; 0xb9; 0xc6; 0xe6; 0x00; 0x00; 0x00; 0x00; 0xc8; 0xe8; 0xcf; 0xef;
   0xd0; 0xf0; 0x00; 0x00; 0x00; 0x00; 0x00; 0x00; 0xca; 0xea; 0xcc; 0xec; 0x00; 0x00; 0x00; 0x00;
   0x00; 0x00; 0x00; 0x00; 0x00; 0x00; 0x00; 0x00; 0x00; 0x00; 0x00; 0x00; 0x00; 0x00; 0x00; 0x00;
   0x00; 0x00; 0x00; 0x00; 0x00; 0x00; 0x00; 0x00; 0x00; 0xc5; 0xe5; 0x00; 0x00; 0xbc; 0xbe; 0x00;
   0x00; 0xa3; 0xb3; 0xd1; 0xf1; 0x00; 0x00; 0xd2; 0xf2; 0x00; 0x00; 0x00; 0x00; 0x00; 0x00; 0x00;
   0xd5; 0xf5; 0x00; 0x00; 0xc0; 0xe0; 0x00; 0x00; 0xd8; 0xf8; 0x8c; 0x9c; 0x00; 0x00; 0xaa; 0xba;
   0x8a; 0x9a; 0xde; 0xfe; 0x8d; 0x9d; 0x00; 0x00; 0x00; 0x00; 0x00; 0x00; 0x00; 0x00; 0xd9; 0xf9;
   0xdb; 0xfb; 0x00; 0x00; 0x00; 0x00; 0x00; 0x00; 0x00; 0x8f; 0x9f; 0xaf; 0xbf; 0x8e; 0x9e; 0x00].
(** cp1250.h lines 101-106 *)
Definition cp1250_page02 : list Z :=
  [0x00; 0x00; 0x00; 0x00; 0x00; 0x00; 0x00; 0xa1; 0x00; 0x00; 0x00; 0x00; 0x00; 0x00; 0x00; 0x00;
   0x00; 0x00; 0x00; 0x00; 0x00; 0x00; 0x00; 0x00; 0xa2; 0xff; 0x00; 0xb2; 0x00; 0xbd; 0x00; 0x00].
(** cp1250.h lines 107-114 *)
Definition cp1250_page20 : list Z :=
  [0x00; 0x00; 0x00; 0x96; 0x97; 0x00; 0x00; 0x00; 0x91; 0x92; 0x82; 0x00; 0x93; 0x94; 0x84; 0x00;
   0x86; 0x87; 0x95; 0x00; 0x00; 0x00; 0x85; 0x00; 0x00; 0x00; 0x00; 0x00; 0x00; 0x00; 0x00; 0x00;
   0x89; 0x00; 0x00; 0x00; 0x00; 0x00; 0x00; 0x00; 0x00; 0x8b; 0x9b; 0x00; 0x00; 0x00; 0x00; 0x00].
(** cp1251.h lines 25-50 *)
Definition cp1251_2uni : list Z :=
  [0x0402; 0x0403; 0x201a; 0x0453; 0x201e; 0x2026; 0x2020; 0x2021; 0x20ac; 0x2030; 0x0409; 0x2039; 0x040a; 0x040c; 0x040b; 0x040f;
   0x0452; 0x2018; 0x2019; 0x201c; 0x201d; 0x2022; 0x2013; 0x2014; 0xfffd; 0x2122; 0x0459; 0x203a; 0x045a; 0x045c; 0x045b; 0x045f;
   0x00a0; 0x040e; 0x045e; 0x0408; 0x00a4; 0x0490; 0x00a6; 0x00a7; 0x0401; 0x00a9; 0x0404; 0x00ab; 0x00ac; 0x00ad; 0x00ae; 0x0407;
   0x00b0; 0x00b1; 0x0406; 0x0456; 0x0491; 0x00b5; 0x00b6; 0x00b7; 0x0451; 0x2116; 0x0454; 0x00bb; 0x0458; 0x0405; 0x0455; 0x0457;
   0x0410; 0x0411; 0x0412; 0x0413; 0x0414; 0x0415; 0x0416; 0x0417; 0x0418; 0x0419; 0x041a; 0x041b; 0x041c; 0x041d; 0x041e; 0x041f;
   0x0420; 0x0421; 0x0422; 0x0423; 0x0424; 0x0425; 0x0426; 0x0427; 0x0428; 0x0429; 0x042a; 0x042b; 0x042c; 0x042d; 0x042e; 0x042f;
   0x0430; 0x0431; 0x0432; 0x0433; 0x0434; 0x0435; 0x0436; 0x0437; 0x0438; 0x0439; 0x043a; 0x043b; 0x043c; 0x043d; 0x043e; 0x043f;
   0x0440; 0x0441; 0x0442; 0x0443; 0x0444; 0x0445; 0x0446; 0x0447; 0x0448; 0x0449; 0x044a; 0x044b; 0x044c; 0x044d; 0x044e; 0x044f].
(** cp1251.h lines 70-75 *)
Definition cp1251_page00 : list Z :=
  [0xa0; 0x00; 0x00; 0x00; 0xa4; 0x00; 0xa6; 0xa7; 0x00; 0xa9; 0x00; 0xab; 0xac; 0xad; 0xae; 0x00;
   0xb0; 0xb1; 0x00; 0x00; 0x00; 0xb5; 0xb6; 0xb7; 0x00; 0x00; 0x00; 0xbb; 0x00; 0x00; 0x00; 0x00].
(** cp1251.h lines 76-96 *)
Definition cp1251_page04 : list Z :=
  [0x00; 0xa8; 0x80; 0x81; 0xaa; 0xbd; 0xb2; 0xaf; 0xa3; 0x8a; 0x8c; 0x8e; 0x8d; 0x00; 0xa1; 0x8f;
   0xc0; 0xc1; 0xc2; 0xc3; 0xc4; 0xc5; 0xc6; 0xc7; 0xc8; 0xc9; 0xca; 0xcb; 0xcc; 0xcd; 0xce; 0xcf;
   0xd0; 0xd1; 0xd2; 0xd3; 0xd4; 0xd5; 0xd6; 0xd7; 0xd8; 0xd9; 0xda; 0xdb; 0xdc; 0xdd; 0xde; 0xdf;
   0xe0; 0xe1; 0xe2; 0xe3; 0xe4; 0xe5; 0xe6; 0xe7; 0xe8; 0xe9; 0xea; 0xeb; 0xec; 0xed; 0xee; 0xef;
   0xf0; 0xf1; 0xf2; 0xf3; 0xf4; 0xf5; 0xf6; 0xf7; 0xf8; 0xf9; 0xfa; 0xfb; 0xfc; 0xfd; 0xfe; 0xff;
   0x00; 0xb8; 0x90; 0x83; 0xba; 0xbe; 0xb3; 0xbf; 0xbc; 0x9a; 0x9c; 0x9e; 0x9d; 0x00; 0xa2; 0x9f;
   0x00; 0x00; 0x00; 0x00; 0x00; 0x00; 0x00; 0x00; 0x00; 0x00; 0x00; 0x00; 0x00; 0x00; 0x00; 0x00;
   0x00; 0x00; 0x00; 0x00; 0x00; 0x00; 0x00; 0x00; 0x00; 0x00; 0x00; 0x00; 0x00; 0x00; 0x00; 0x00;
   0x00; 0x00; 0x00; 0x00; 0x00; 0x00; 0x00; 0x00; 0x00; 0x00; 0x00; 0x00; 0x00; 0x00; 0x00; 0x00;
   0xa5; 0xb4; 0x00; 0x00; 0x00; 0x00; 0x00; 0x00].
(** cp1251.h lines 97-104 *)
Definition cp1251_page20 : list Z :=
  [0x00; 0x00; 0x00; 0x96; 0x97; 0x00; 0x00; 0x00; 0x91; 0x92; 0x82; 0x00; 0x93; 0x94; 0x84; 0x00;
   0x86; 0x87; 0x95; 0x00; 0x00; 0x00; 0x85; 0x00; 0x00; 0x00; 0x00; 0x00; 0x00; 0x00; 0x00; 0x00;
   0x89; 0x00; 0x00; 0x00; 0x00; 0x00; 0x00; 0x00; 0x00; 0x8b; 0x9b; 0x00; 0x00; 0x00; 0x00; 0x00].
(** cp1252.h lines 25-32 *)
Definition cp1252_2uni : list Z :=
  [0x20ac; 0xfffd; 0x201a; 0x0192; 0x201e; 0x2026; 0x2020; 0x2021; 0x02c6; 0x2030; 0x0160; 0x2039; 0x0152; 0xfffd; 0x017d; 0xfffd;
   0xfffd; 0x2018; 0x2019; 0x201c; 0x201d; 0x2022; 0x2013; 0x2014; 0x02dc; 0x2122; 0x0161; 0x203a; 0x0153; 0xfffd; 0x017e; 0x0178].
(** cp1252.h lines 52-62 *)
Definition cp1252_page01 : list Z :=
  [0x00; 0x00; 0x8c; 0x9c; 0x00; 0x00; 0x00; 0x00; 0x00; 0x00; 0x00; 0x00; 0x00; 0x00; 0x00; 0x00;
   0x8a; 0x9a; 0x00; 0x00; 0x00; 0x00; 0x00; 0x00; 0x00; 0x00; 0x00; 0x00; 0x00; 0x00; 0x00; 0x00;
   0x00; 0x00; 0x00; 0x00; 0x00; 0x00; 0x00; 0x00; 0x9f; 0x00; 0x00; 0x00; 0x00; 0x8e; 0x9e; 0x00;
   0x00; 0x00; 0x00; 0x00; 0x00; 0x00; 0x00; 0x00; 0x00; 0x00; 0x00; 0x00; 0x00; 0x00; 0x00; 0x00;
   0x00; 0x00; 0x83; 0x00; 0x00; 0x00; 0x00; 0x00].
(** cp1252.h lines 63-68 *)
Definition cp1252_page02 : list Z :=
  [0x00; 0x00; 0x00; 0x00; 0x00; 0x00; 0x88; 0x00; 0x00; 0x00; 0x00; 0x00; 0x00; 0x00; 0x00; 0x00;
   0x00; 0x00; 0x00; 0x00; 0x00; 0x00; 0x00; 0x00; 0x00; 0x00; 0x00; 0x00; 0x98; 0x00; 0x00; 0x00].
(** cp1252.h lines 69-76 *)
Definition cp1252_page20 : list Z :=
  [0x00; 0x00; 0x00; 0x96; 0x97; 0x00; 0x00; 0x00; 0x91; 0x92; 0x82; 0x00; 0x93; 0x94; 0x84; 0x00;
   0x86; 0x87; 0x95; 0x00; 0x00; 0x00; 0x85; 0x00; 0x00; 0x00; 0x00; 0x00; 0x00; 0x00; 0x00; 0x00;
   0x89; 0x00; 0x00; 0x00; 0x00; 0x00; 0x00; 0x00; 0x00; 0x8b; 0x9b; 0x00; 0x00; 0x00; 0x00; 0x00].
(** cp1253.h lines 25-50 *)
Definition cp1253_2uni : list Z :=
  [0x20ac; 0xfffd; 0x201a; 0x0192; 0x201e; 0x2026; 0x2020; 0x2021; 0xfffd; 0x2030; 0xfffd; 0x2039; 0xfffd; 0xfffd; 0xfffd; 0xfffd;
   0xfffd; 0x2018; 0x2019; 0x201c; 0x201d; 0x2022; 0x2013; 0x2014; 0xfffd; 0x2122; 0xfffd; 0x203a; 0xfffd; 0xfffd; 0xfffd; 0xfffd;
   0x00a0; 0x0385; 0x0386; 0x00a3; 0x00a4; 0x00a5; 0x00a6; 0x00a7; 0x00a8; 0x00a9; 0xfffd; 0x00ab; 0x00ac; 0x00ad; 0x00ae; 0x2015;
   0x00b0; 0x00b1; 0x00b2; 0x00b3; 0x0384; 0x00b5; 0x00b6; 0x00b7; 0x0388; 0x0389; 0x038a; 0x00bb; 0x038c; 0x00bd; 0x038e; 0x038f;
   0x0390; 0x0391; 0x0392; 0x0393; 0x0394; 0x0395; 0x0396; 0x0397; 0x0398; 0x0399; 0x039a; 0x039b; 0x039c; 0x039d; 0x039e; 0x039f;
   0x03a0; 0x03a1; 0xfffd; 0x03a3; 0x03a4; 0x03a5; 0x03a6; 0x03a7; 0x03a8; 0x03a9; 0x03aa; 0x03ab; 0x03ac; 0x03ad; 0x03ae; 0x03af;
   0x03b0; 0x03b1; 0x03b2; 0x03b3; 0x03b4; 0x03b5; 0x03b6; 0x03b7; 0x03b8; 0x03b9; 0x03ba; 0x03bb; 0x03bc; 0x03bd; 0x03be; 0x03bf;
   0x03c0; 0x03c1; 0x03c2; 0x03c3; 0x03c4; 0x03c5; 0x03c6; 0x03c7; 0x03c8; 0x03c9; 0x03ca; 0x03cb; 0x03cc; 0x03cd; 0x03ce; 0xfffd].
(** cp1253.h lines 70-75 *)
Definition cp1253_page00 : list Z :=
  [0xa0; 0x00; 0x00; 0xa3; 0xa4; 0xa5; 0xa6; 0xa7; 0xa8; 0xa9; 0x00; 0xab; 0xac; 0xad; 0xae; 0x00;
   0xb0; 0xb1; 0xb2; 0xb3; 0x00; 0xb5; 0xb6; 0xb7; 0x00; 0x00; 0x00; 0xbb; 0x00; 0xbd; 0x00; 0x00].
(** cp1253.h lines 76-87 *)
Definition cp1253_page03 : list Z :=
  [0x00; 0x00; 0x00; 0x00; 0xb4; 0xa1; 0xa2; 0x00; 0xb8; 0xb9; 0xba; 0x00; 0xbc; 0x00; 0xbe; 0xbf;
   0xc0; 0xc1; 0xc2; 0xc3; 0xc4; 0xc5; 0xc6; 0xc7; 0xc8; 0xc9; 0xca; 0xcb; 0xcc; 0xcd; 0xce; 0xcf;
   0xd0; 0xd1; 0x00; 0xd3; 0xd4; 0xd5; 0xd6; 0xd7; 0xd8; 0xd9; 0xda; 0xdb; 0xdc; 0xdd; 0xde; 0xdf;
   0xe0; 0xe1; 0xe2; 0xe3; 0xe4; 0xe5; 0xe6; 0xe7; 0xe8; 0xe9; 0xea; 0xeb; 0xec; 0xed; 0xee; 0xef;
   0xf0; 0xf1; 0xf2; 0xf3; 0xf4; 0xf5; 0xf6; 0xf7; 0xf8; 0xf9; 0xfa; 0xfb; 0xfc; 0xfd; 0xfe; 0x00].
(** cp1253.h lines 88-95 *)
Definition cp1253_page20 : list Z :=
  [0x00; 0x00; 0x00; 0x96; 0x97; 0xaf; 0x00; 0x00; 0x91; 0x92; 0x82; 0x00; 0x93; 0x94; 0x84; 0x00;
   0x86; 0x87; 0x95; 0x00; 0x00; 0x00; 0x85; 0x00; 0x00; 0x00; 0x00; 0x00; 0x00; 0x00; 0x00; 0x00;
   0x89; 0x00; 0x00; 0x00; 0x00; 0x00; 0x00; 0x00; 0x00; 0x8b; 0x9b; 0x00; 0x00; 0x00; 0x00; 0x00].
(** cp1254.h lines 25-32 *)
Definition cp1254_2uni_1 : list Z :=
  [0x20ac; 0xfffd; 0x201a; 0x0192; 0x201e; 0x2026; 0x2020; 0x2021; 0x02c6; 0x2030; 0x0160; 0x2039; 0x0152; 0xfffd; 0xfffd; 0xfffd;
   0xfffd; 0x2018; 0x2019; 0x201c; 0x201d; 0x2022; 0x2013; 0x2014; 0x02dc; 0x2122; 0x0161; 0x203a; 0x0153; 0xfffd; 0xfffd; 0x0178].
(** cp1254.h lines 33-37 *)
Definition cp1254_2uni_2 : list Z :=
  [0x011e; 0x00d1; 0x00d2; 0x00d3; 0x00d4; 0x00d5; 0x00d6; 0x00d7; 0x00d8; 0x00d9; 0x00da; 0x00db; 0x00dc; 0x0130; 0x015e; 0x00df].
(** cp1254.h lines 38-42 *)
Definition cp1254_2uni_3 : list Z :=
  [0x011f; 0x00f1; 0x00f2; 0x00f3; 0x00f4; 0x00f5; 0x00f6; 0x00f7; 0x00f8; 0x00f9; 0x00fa; 0x00fb; 0x00fc; 0x0131; 0x015f; 0x00ff].
(** cp1254.h lines 78-85 *)
Definition cp1254_page00 : list Z :=
  [0x00; 0xd1; 0xd2; 0xd3; 0xd4; 0xd5; 0xd6; 0xd7; 0xd8; 0xd9; 0xda; 0xdb; 0xdc; 0x00; 0x00; 0xdf;
   0xe0; 0xe1; 0xe2; 0xe3; 0xe4; 0xe5; 0xe6; 0xe7; 0xe8; 0xe9; 0xea; 0xeb; 0xec; 0xed; 0xee; 0xef;
   0x00; 0xf1; 0xf2; 0xf3; 0xf4; 0xf5; 0xf6; 0xf7; 0xf8; 0xf9; 0xfa; 0xfb; 0xfc; 0x00; 0x00; 0xff].
(** cp1254.h lines 86-103 *)
Definition cp1254_page01 : list Z :=
  [0x00; 0x00; 0x00; 0x00; 0x00; 0x00; 0xd0; 0xf0; 0x00; 0x00; 0x00; 0x00; 0x00; 0x00; 0x00; 0x00;
   0x00; 0x00; 0x00; 0x00; 0x00; 0x00; 0x00; 0x00; 0xdd; 0xfd; 0x00; 0x00; 0x00; 0x00; 0x00; 0x00;
   0x00; 0x00; 0x00; 0x00; 0x00; 0x00; 0x00; 0x00; 0x00; 0x00; 0x00; 0x00; 0x00; 0x00; 0x00; 0x00;
   0x00; 0x00; 0x00; 0x00; 0x00; 0x00; 0x00; 0x00; 0x00; 0x00; 0x8c; 0x9c; 0x00; 0x00; 0x00; 0x00;
   0x00; 0x00; 0x00; 0x00; 0x00; 0x00; 0xde; 0xfe; 0x8a; 0x9a; 0x00; 0x00; 0x00; 0x00; 0x00; 0x00;
   0x00; 0x00; 0x00; 0x00; 0x00; 0x00; 0x00; 0x00; 0x00; 0x00; 0x00; 0x00; 0x00; 0x00; 0x00; 0x00;
   0x9f; 0x00; 0x00; 0x00; 0x00; 0x00; 0x00; 0x00; 0x00; 0x00; 0x00; 0x00; 0x00; 0x00; 0x00; 0x00;
   0x00; 0x00; 0x00; 0x00; 0x00; 0x00; 0x00; 0x00; 0x00; 0x00; 0x83; 0x00; 0x00; 0x00; 0x00; 0x00].
(** cp1254.h lines 104-109 *)
Definition cp1254_page02 : list Z :=
  [0x00; 0x00; 0x00; 0x00; 0x00; 0x00; 0x88; 0x00; 0x00; 0x00; 0x00; 0x00; 0x00; 0x00; 0x00; 0x00;
   0x00; 0x00; 0x00; 0x00; 0x00; 0x00; 0x00; 0x00; 0x00; 0x00; 0x00; 0x00; 0x98; 0x00; 0x00; 0x00].
(** cp1254.h lines 110-117 *)
Definition cp1254_page20 : list Z :=
  [0x00; 0x00; 0x00; 0x96; 0x97; 0x00; 0x00; 0x00; 0x91; 0x92; 0x82; 0x00; 0x93; 0x94; 0x84; 0x00;
   0x86; 0x87; 0x95; 0x00; 0x00; 0x00; 0x85; 0x00; 0x00; 0x00; 0x00; 0x00; 0x00; 0x00; 0x00; 0x00;
   0x89; 0x00; 0x00; 0x00; 0x00; 0x00; 0x00; 0x00; 0x00; 0x8b; 0x9b; 0x00; 0x00; 0x00; 0x00; 0x00].
(** cp1256.h lines 25-50 *)
Definition cp1256_2uni : list Z :=
  [0x20ac; 0x067e; 0x201a; 0x0192; 0x201e; 0x2026; 0x2020; 0x2021; 0x02c6; 0x2030; 0x0679; 0x2039; 0x0152; 0x0686; 0x0698; 0x0688;
   0x06af; 0x2018; 0x2019; 0x201c; 0x201d; 0x2022; 0x2013; 0x2014; 0x06a9; 0x2122; 0x0691; 0x203a; 0x0153; 0x200c; 0x200d; 0x06ba;
   0x00a0; 0x060c; 0x00a2; 0x00a3; 0x00a4; 0x00a5; 0x00a6; 0x00a7; 0x00a8; 0x00a9; 0x06be; 0x00ab; 0x00ac; 0x00ad; 0x00ae; 0x00af;
   0x00b0; 0x00b1; 0x00b2; 0x00b3; 0x00b4; 0x00b5; 0x00b6; 0x00b7; 0x00b8; 0x00b9; 0x061b; 0x00bb; 0x00bc; 0x00bd; 0x00be; 0x061f;
   0x06c1; 0x0621; 0x0622; 0x0623; 0x0624; 0x0625; 0x0626; 0x0627; 0x0628; 0x0629; 0x062a; 0x062b; 0x062c; 0x062d; 0x062e; 0x062f;
   0x0630; 0x0631; 0x0632; 0x0633; 0x0634; 0x0635; 0x0636; 0x00d7; 0x0637; 0x0638; 0x0639; 0x063a; 0x0640; 0x0641; 0x0642; 0x0643;
   0x00e0; 0x0644; 0x00e2; 0x0645; 0x0646; 0x0647; 0x0648; 0x00e7; 0x00e8; 0x00e9; 0x00ea; 0x00eb; 0x0649; 0x064a; 0x00ee; 0x00ef;
   0x064b; 0x064c; 0x064d; 0x064e; 0x00f4; 0x064f; 0x0650; 0x00f7; 0x0651; 0x00f9; 0x0652; 0x00fb; 0x00fc; 0x200e; 0x200f; 0x06d2].
(** cp1256.h lines 63-76 *)
Definition cp1256_page00 : list Z :=
  [0xa0; 0x00; 0xa2; 0xa3; 0xa4; 0xa5; 0xa6; 0xa7; 0xa8; 0xa9; 0x00; 0xab; 0xac; 0xad; 0xae; 0xaf;
   0xb0; 0xb1; 0xb2; 0xb3; 0xb4; 0xb5; 0xb6; 0xb7; 0xb8; 0xb9; 0x00; 0xbb; 0xbc; 0xbd; 0xbe; 0x00;
   0x00; 0x00; 0x00; 0x00; 0x00; 0x00; 0x00; 0x00; 0x00; 0x00; 0x00; 0x00; 0x00; 0x00; 0x00; 0x00;
   0x00; 0x00; 0x00; 0x00; 0x00; 0x00; 0x00; 0xd7; 0x00; 0x00; 0x00; 0x00; 0x00; 0x00; 0x00; 0x00;
   0xe0; 0x00; 0xe2; 0x00; 0x00; 0x00; 0x00; 0xe7; 0xe8; 0xe9; 0xea; 0xeb; 0x00; 0x00; 0xee; 0xef;
   0x00; 0x00; 0x00; 0x00; 0xf4; 0x00; 0x00; 0xf7; 0x00; 0xf9; 0x00; 0xfb; 0xfc; 0x00; 0x00; 0x00].
(** cp1256.h lines 77-87 *)
Definition cp1256_page01 : list Z :=
  [0x00; 0x00; 0x8c; 0x9c; 0x00; 0x00; 0x00; 0x00; 0x00; 0x00; 0x00; 0x00; 0x00; 0x00; 0x00; 0x00;
   0x00; 0x00; 0x00; 0x00; 0x00; 0x00; 0x00; 0x00; 0x00; 0x00; 0x00; 0x00; 0x00; 0x00; 0x00; 0x00;
   0x00; 0x00; 0x00; 0x00; 0x00; 0x00; 0x00; 0x00; 0x00; 0x00; 0x00; 0x00; 0x00; 0x00; 0x00; 0x00;
   0x00; 0x00; 0x00; 0x00; 0x00; 0x00; 0x00; 0x00; 0x00; 0x00; 0x00; 0x00; 0x00; 0x00; 0x00; 0x00;
   0x00; 0x00; 0x83; 0x00; 0x00; 0x00; 0x00; 0x00].
(** cp1256.h lines 88-115 *)
Definition cp1256_page06 : list Z :=
  [0x00; 0x00; 0x00; 0x00; 0xa1; 0x00; 0x00; 0x00; 0x00; 0x00; 0x00; 0x00; 0x00; 0x00; 0x00; 0x00;
   0x00; 0x00; 0x00; 0xba; 0x00; 0x00; 0x00; 0xbf; 0x00; 0xc1; 0xc2; 0xc3; 0xc4; 0xc5; 0xc6; 0xc7;
   0xc8; 0xc9; 0xca; 0xcb; 0xcc; 0xcd; 0xce; 0xcf; 0xd0; 0xd1; 0xd2; 0xd3; 0xd4; 0xd5; 0xd6; 0xd8;
   0xd9; 0xda; 0xdb; 0x00; 0x00; 0x00; 0x00; 0x00; 0xdc; 0xdd; 0xde; 0xdf; 0xe1; 0xe3; 0xe4; 0xe5;
   0xe6; 0xec; 0xed; 0xf0; 0xf1; 0xf2; 0xf3; 0xf5; 0xf6; 0xf8; 0xfa; 0x00; 0x00; 0x00; 0x00; 0x00;
   0x00; 0x00; 0x00; 0x00; 0x00; 0x00; 0x00; 0x00; 0x00; 0x00; 0x00; 0x00; 0x00; 0x00; 0x00; 0x00;
   0x00; 0x00; 0x00; 0x00; 0x00; 0x00; 0x00; 0x00; 0x00; 0x00; 0x00; 0x00; 0x00; 0x00; 0x00; 0x00;
   0x00; 0x8a; 0x00; 0x00; 0x00; 0x00; 0x81; 0x00; 0x00; 0x00; 0x00; 0x00; 0x00; 0x00; 0x8d; 0x00;
   0x8f; 0x00; 0x00; 0x00; 0x00; 0x00; 0x00; 0x00; 0x00; 0x9a; 0x00; 0x00; 0x00; 0x00; 0x00; 0x00;
   0x8e; 0x00; 0x00; 0x00; 0x00; 0x00; 0x00; 0x00; 0x00; 0x00; 0x00; 0x00; 0x00; 0x00; 0x00; 0x00;
   0x00; 0x98; 0x00; 0x00; 0x00; 0x00; 0x00; 0x90; 0x00; 0x00; 0x00; 0x00; 0x00; 0x00; 0x00; 0x00;
   0x00; 0x00; 0x9f; 0x00; 0x00; 0x00; 0xaa; 0x00; 0x00; 0xc0; 0x00; 0x00; 0x00; 0x00; 0x00; 0x00;
   0x00; 0x00; 0x00; 0x00; 0x00; 0x00; 0x00; 0x00; 0x00; 0x00; 0xff; 0x00; 0x00; 0x00; 0x00; 0x00].
(** cp1256.h lines 116-124 *)
Definition cp1256_page20 : list Z :=
  [0x00; 0x00; 0x00; 0x00; 0x9d; 0x9e; 0xfd; 0xfe; 0x00; 0x00; 0x00; 0x96; 0x97; 0x00; 0x00; 0x00;
   0x91; 0x92; 0x82; 0x00; 0x93; 0x94; 0x84; 0x00; 0x86; 0x87; 0x95; 0x00; 0x00; 0x00; 0x85; 0x00;
   0x00; 0x00; 0x00; 0x00; 0x00; 0x00; 0x00; 0x00; 0x89; 0x00; 0x00; 0x00; 0x00; 0x00; 0x00; 0x00;
   0x00; 0x8b; 0x9b; 0x00; 0x00; 0x00; 0x00; 0x00].
(** cp1257.h lines 25-50 *)
Definition cp1257_2uni : list Z :=
  [0x20ac; 0xfffd; 0x201a; 0xfffd; 0x201e; 0x2026; 0x2020; 0x2021; 0xfffd; 0x2030; 0xfffd; 0x2039; 0xfffd; 0x00a8; 0x02c7; 0x00b8;
   0xfffd; 0x2018; 0x2019; 0x201c; 0x201d; 0x2022; 0x2013; 0x2014; 0xfffd; 0x2122; 0xfffd; 0x203a; 0xfffd; 0x00af; 0x02db; 0xfffd;
   0x00a0; 0xfffd; 0x00a2; 0x00a3; 0x00a4; 0xfffd; 0x00a6; 0x00a7; 0x00d8; 0x00a9; 0x0156; 0x00ab; 0x00ac; 0x00ad; 0x00ae; 0x00c6;
   0x00b0; 0x00b1; 0x00b2; 0x00b3; 0x00b4; 0x00b5; 0x00b6; 0x00b7; 0x00f8; 0x00b9; 0x0157; 0x00bb; 0x00bc; 0x00bd; 0x00be; 0x00e6;
   0x0104; 0x012e; 0x0100; 0x0106; 0x00c4; 0x00c5; 0x0118; 0x0112; 0x010c; 0x00c9; 0x0179; 0x0116; 0x0122; 0x0136; 0x012a; 0x013b;
   0x0160; 0x0143; 0x0145; 0x00d3; 0x014c; 0x00d5; 0x00d6; 0x00d7; 0x0172; 0x0141; 0x015a; 0x016a; 0x00dc; 0x017b; 0x017d; 0x00df;
   0x0105; 0x012f; 0x0101; 0x0107; 0x00e4; 0x00e5; 0x0119; 0x0113; 0x010d; 0x00e9; 0x017a; 0x0117; 0x0123; 0x0137; 0x012b; 0x013c;
   0x0161; 0x0144; 0x0146; 0x00f3; 0x014d; 0x00f5; 0x00f6; 0x00f7; 0x0173; 0x0142; 0x015b; 0x016b; 0x00fc; 0x017c; 0x017e; 0x02d9].
(** cp1257.h lines 70-100 *)
Definition cp1257_page00 : list Z :=
  [0xa0; 0x00; 0xa2; 0xa3; 0xa4; 0x00; 0xa6; 0xa7; 0x8d; 0xa9; 0x00; 0xab; 0xac; 0xad; 0xae; 0x9d;
   0xb0; 0xb1; 0xb2; 0xb3; 0xb4; 0xb5; 0xb6; 0xb7; 0x8f; 0xb9; 0x00; 0xbb; 0xbc; 0xbd; 0xbe; 0x00;
   0x00; 0x00; 0x00; 0x00; 0xc4; 0xc5; 0xaf; 0x00; 0x00; 0xc9; 0x00; 0x00; 0x00; 0x00; 0x00; 0x00;
   0x00; 0x00; 0x00; 0xd3; 0x00; 0xd5; 0xd6; 0xd7; 0xa8; 0x00; 0x00; 0x00; 0xdc; 0x00; 0x00; 0xdf;
   0x00; 0x00; 0x00; 0x00; 0xe4; 0xe5; 0xbf; 0x00; 0x00; 0xe9; 0x00; 0x00; 0x00; 0x00; 0x00; 0x00;
   0x00; 0x00; 0x00; 0xf3; 0x00; 0xf5; 0xf6; 0xf7; 0xb8; 0x00; 0x00; 0x00; 0xfc; 0x00; 0x00; 0x00;
   0xc2; 0xe2; 0x00; 0x00; 0xc0; 0xe0; 0xc3; 0xe3; 0x00; 0x00; 0x00; 0x00; 0xc8; 0xe8; 0x00; 0x00;
   0x00; 0x00; 0xc7; 0xe7; 0x00; 0x00; 0xcb; 0xeb; 0xc6; 0xe6; 0x00; 0x00; 0x00; 0x00; 0x00; 0x00;
   0x00; 0x00; 0xcc; 0xec; 0x00; 0x00; 0x00; 0x00; 0x00; 0x00; 0xce; 0xee; 0x00; 0x00; 0xc1; 0xe1;
   0x00; 0x00; 0x00; 0x00; 0x00; 0x00; 0xcd; 0xed; 0x00; 0x00; 0x00; 0xcf; 0xef; 0x00; 0x00; 0x00;
   0x00; 0xd9; 0xf9; 0xd1; 0xf1; 0xd2; 0xf2; 0x00; 0x00; 0x00; 0x00; 0x00; 0xd4; 0xf4; 0x00; 0x00;
   0x00; 0x00; 0x00; 0x00; 0x00; 0x00; 0xaa; 0xba; 0x00; 0x00; 0xda; 0xfa; 0x00; 0x00; 0x00; 0x00;
   0xd0; 0xf0; 0x00; 0x00; 0x00; 0x00; 0x00; 0x00; 0x00; 0x00; 0xdb; 0xfb; 0x00; 0x00; 0x00; 0x00;
   0x00; 0x00; 0xd8; 0xf8; 0x00; 0x00; 0x00; 0x00; 0x00; 0xca; 0xea; 0xdd; 0xfd; 0xde; 0xfe; 0x00].
(** cp1257.h lines 101-106 *)
Definition cp1257_page02 : list Z :=
  [0x00; 0x00; 0x00; 0x00; 0x00; 0x00; 0x00; 0x8e; 0x00; 0x00; 0x00; 0x00; 0x00; 0x00; 0x00; 0x00;
   0x00; 0x00; 0x00; 0x00; 0x00; 0x00; 0x00; 0x00; 0x00; 0xff; 0x00; 0x9e; 0x00; 0x00; 0x00; 0x00].
(** cp1257.h lines 107-114 *)
Definition cp1257_page20 : list Z :=
  [0x00; 0x00; 0x00; 0x96; 0x97; 0x00; 0x00; 0x00; 0x91; 0x92; 0x82; 0x00; 0x93; 0x94; 0x84; 0x00;
   0x86; 0x87; 0x95; 0x00; 0x00; 0x00; 0x85; 0x00; 0x00; 0x00; 0x00; 0x00; 0x00; 0x00; 0x00; 0x00;
   0x89; 0x00; 0x00; 0x00; 0x00; 0x00; 0x00; 0x00; 0x00; 0x8b; 0x9b; 0x00; 0x00; 0x00; 0x00; 0x00].
(** iso8859_2.h lines 25-44 *)
Definition iso8859_2_2uni : list Z :=
  [0x00a0; 0x0104; 0x02d8; 0x0141; 0x00a4; 0x013d; 0x015a; 0x00a7; 0x00a8; 0x0160; 0x015e; 0x0164; 0x0179; 0x00ad; 0x017d; 0x017b;
   0x00b0; 0x0105; 0x02db; 0x0142; 0x00b4; 0x013e; 0x015b; 0x02c7; 0x00b8; 0x0161; 0x015f; 0x0165; 0x017a; 0x02dd; 0x017e; 0x017c;
   0x0154; 0x00c1; 0x00c2; 0x0102; 0x00c4; 0x0139; 0x0106; 0x00c7; 0x010c; 0x00c9; 0x0118; 0x00cb; 0x011a; 0x00cd; 0x00ce; 0x010e;
   0x0110; 0x0143; 0x0147; 0x00d3; 0x00d4; 0x0150; 0x00d6; 0x00d7; 0x0158; 0x016e; 0x00da; 0x0170; 0x00dc; 0x00dd; 0x0162; 0x00df;
   0x0155; 0x00e1; 0x00e2; 0x0103; 0x00e4; 0x013a; 0x0107; 0x00e7; 0x010d; 0x00e9; 0x0119; 0x00eb; 0x011b; 0x00ed; 0x00ee; 0x010f;
   0x0111; 0x0144; 0x0148; 0x00f3; 0x00f4; 0x0151; 0x00f6; 0x00f7; 0x0159; 0x016f; 0x00fa; 0x0171; 0x00fc; 0x00fd; 0x0163; 0x02d9].
(** iso8859_2.h lines 57-87 *)
Definition iso8859_2_page00 : list Z :=
  [0xa0; 0x00; 0x00; 0x00; 0xa4; 0x00; 0x00; 0xa7; 0xa8; 0x00; 0x00; 0x00; 0x00; 0xad; 0x00; 0x00;
   0xb0; 0x00; 0x00; 0x00; 0xb4; 0x00; 0x00; 0x00; 0xb8; 0x00; 0x00; 0x00; 0x00; 0x00; 0x00; 0x00;
   0x00; 0xc1; 0xc2; 0x00; 0xc4; 0x00; 0x00; 0xc7; 0x00; 0xc9; 0x00; 0xcb; 0x00; 0xcd; 0xce; 0x00;
   0x00; 0x00; 0x00; 0xd3; 0xd4; 0x00; 0xd6; 0xd7; 0x00; 0x00; 0xda; 0x00; 0xdc; 0xdd; 0x00; 0xdf;
   0x00; 0xe1; 0xe2; 0x00; 0xe4; 0x00; 0x00; 0xe7; 0x00; 0xe9; 0x00; 0xeb; 0x00; 0xed; 0xee; 0x00;
   0x00; 0x00; 0x00; 0xf3; 0xf4; 0x00; 0xf6; 0xf7; 0x00; 0x00; 0xfa; 0x00; 0xfc; 0xfd; 0x00; 0x00;
   0x00; 0x00; 0xc3; 0xe3; 0xa1; 0xb1; 0xc6; 0xe6; 0x00; 0x00; 0x00; 0x00; 0xc8; 0xe8; 0xcf; 0xef;
   0xd0; 0xf0; 0x00; 0x00; 0x00; 0x00; 0x00; 0x00; 0xca; 0xea; 0xcc; 0xec; 0x00; 0x00; 0x00; 0x00;
   0x00; 0x00; 0x00; 0x00; 0x00; 0x00; 0x00; 0x00; 0x00; 0x00; 0x00; 0x00; 0x00; 0x00; 0x00; 0x00;
   0x00; 0x00; 0x00; 0x00; 0x00; 0x00; 0x00; 0x00; 0x00; 0xc5; 0xe5; 0x00; 0x00; 0xa5; 0xb5; 0x00;
   0x00; 0xa3; 0xb3; 0xd1; 0xf1; 0x00; 0x00; 0xd2; 0xf2; 0x00; 0x00; 0x00; 0x00; 0x00; 0x00; 0x00;
   0xd5; 0xf5; 0x00; 0x00; 0xc0; 0xe0; 0x00; 0x00; 0xd8; 0xf8; 0xa6; 0xb6; 0x00; 0x00; 0xaa; 0xba;
   0xa9; 0xb9; 0xde; 0xfe; 0xab; 0xbb; 0x00; 0x00; 0x00; 0x00; 0x00; 0x00; 0x00; 0x00; 0xd9; 0xf9;
   0xdb; 0xfb; 0x00; 0x00; 0x00; 0x00; 0x00; 0x00; 0x00; 0xac; 0xbc; 0xaf; 0xbf; 0xae; 0xbe; 0x00].
(** iso8859_2.h lines 88-93 *)
Definition iso8859_2_page02 : list Z :=
  [0x00; 0x00; 0x00; 0x00; 0x00; 0x00; 0x00; 0xb7; 0x00; 0x00; 0x00; 0x00; 0x00; 0x00; 0x00; 0x00;
   0x00; 0x00; 0x00; 0x00; 0x00; 0x00; 0x00; 0x00; 0xa2; 0xff; 0x00; 0xb2; 0x00; 0xbd; 0x00; 0x00].
(** iso8859_3.h lines 25-44 *)
Definition iso8859_3_2uni : list Z :=
  [0x00a0; 0x0126; 0x02d8; 0x00a3; 0x00a4; 0xfffd; 0x0124; 0x00a7; 0x00a8; 0x0130; 0x015e; 0x011e; 0x0134; 0x00ad; 0xfffd; 0x017b;
   0x00b0; 0x0127; 0x00b2; 0x00b3; 0x00b4; 0x00b5; 0x0125; 0x00b7; 0x00b8; 0x0131; 0x015f; 0x011f; 0x0135; 0x00bd; 0xfffd; 0x017c;
   0x00c0; 0x00c1; 0x00c2; 0xfffd; 0x00c4; 0x010a; 0x0108; 0x00c7; 0x00c8; 0x00c9; 0x00ca; 0x00cb; 0x00cc; 0x00cd; 0x00ce; 0x00cf;
   0xfffd; 0x00d1; 0x00d2; 0x00d3; 0x00d4; 0x0120; 0x00d6; 0x00d7; 0x011c; 0x00d9; 0x00da; 0x00db; 0x00dc; 0x016c; 0x015c; 0x00df;
   0x00e0; 0x00e1; 0x00e2; 0xfffd; 0x00e4; 0x010b; 0x0109; 0x00e7; 0x00e8; 0x00e9; 0x00ea; 0x00eb; 0x00ec; 0x00ed; 0x00ee; 0x00ef;
   0xfffd; 0x00f1; 0x00f2; 0x00f3; 0x00f4; 0x0121; 0x00f6; 0x00f7; 0x011d; 0x00f9; 0x00fa; 0x00fb; 0x00fc; 0x016d; 0x015d; 0x02d9].
(** iso8859_3.h lines 64-77 *)
Definition iso8859_3_page00 : list Z :=
  [0xa0; 0x00; 0x00; 0xa3; 0xa4; 0x00; 0x00; 0xa7; 0xa8; 0x00; 0x00; 0x00; 0x00; 0xad; 0x00; 0x00;
   0xb0; 0x00; 0xb2; 0xb3; 0xb4; 0xb5; 0x00; 0xb7; 0xb8; 0x00; 0x00; 0x00; 0x00; 0xbd; 0x00; 0x00;
   0xc0; 0xc1; 0xc2; 0x00; 0xc4; 0x00; 0x00; 0xc7; 0xc8; 0xc9; 0xca; 0xcb; 0xcc; 0xcd; 0xce; 0xcf;
   0x00; 0xd1; 0xd2; 0xd3; 0xd4; 0x00; 0xd6; 0xd7; 0x00; 0xd9; 0xda; 0xdb; 0xdc; 0x00; 0x00; 0xdf;
   0xe0; 0xe1; 0xe2; 0x00; 0xe4; 0x00; 0x00; 0xe7; 0xe8; 0xe9; 0xea; 0xeb; 0xec; 0xed; 0xee; 0xef;
   0x00; 0xf1; 0xf2; 0xf3; 0xf4; 0x00; 0xf6; 0xf7; 0x00; 0xf9; 0xfa; 0xfb; 0xfc; 0x00; 0x00; 0x00].
(** iso8859_3.h lines 78-94 *)
Definition iso8859_3_page01 : list Z :=
  [0xc6; 0xe6; 0xc5; 0xe5; 0x00; 0x00; 0x00; 0x00; 0x00; 0x00; 0x00; 0x00; 0x00; 0x00; 0x00; 0x00;
   0x00; 0x00; 0x00; 0x00; 0xd8; 0xf8; 0xab; 0xbb; 0xd5; 0xf5; 0x00; 0x00; 0xa6; 0xb6; 0xa1; 0xb1;
   0x00; 0x00; 0x00; 0x00; 0x00; 0x00; 0x00; 0x00; 0xa9; 0xb9; 0x00; 0x00; 0xac; 0xbc; 0x00; 0x00;
   0x00; 0x00; 0x00; 0x00; 0x00; 0x00; 0x00; 0x00; 0x00; 0x00; 0x00; 0x00; 0x00; 0x00; 0x00; 0x00;
   0x00; 0x00; 0x00; 0x00; 0x00; 0x00; 0x00; 0x00; 0x00; 0x00; 0x00; 0x00; 0x00; 0x00; 0x00; 0x00;
   0x00; 0x00; 0x00; 0x00; 0xde; 0xfe; 0xaa; 0xba; 0x00; 0x00; 0x00; 0x00; 0x00; 0x00; 0x00; 0x00;
   0x00; 0x00; 0x00; 0x00; 0xdd; 0xfd; 0x00; 0x00; 0x00; 0x00; 0x00; 0x00; 0x00; 0x00; 0x00; 0x00;
   0x00; 0x00; 0x00; 0xaf; 0xbf; 0x00; 0x00; 0x00].
(** iso8859_3.h lines 95-97 *)
Definition iso8859_3_page02 : list Z :=
  [0xa2; 0xff; 0x00; 0x00; 0x00; 0x00; 0x00; 0x00].
(** iso8859_4.h lines 25-44 *)
Definition iso8859_4_2uni : list Z :=
  [0x00a0; 0x0104; 0x0138; 0x0156; 0x00a4; 0x0128; 0x013b; 0x00a7; 0x00a8; 0x0160; 0x0112; 0x0122; 0x0166; 0x00ad; 0x017d; 0x00af;
   0x00b0; 0x0105; 0x02db; 0x0157; 0x00b4; 0x0129; 0x013c; 0x02c7; 0x00b8; 0x0161; 0x0113; 0x0123; 0x0167; 0x014a; 0x017e; 0x014b;
   0x0100; 0x00c1; 0x00c2; 0x00c3; 0x00c4; 0x00c5; 0x00c6; 0x012e; 0x010c; 0x00c9; 0x0118; 0x00cb; 0x0116; 0x00cd; 0x00ce; 0x012a;
   0x0110; 0x0145; 0x014c; 0x0136; 0x00d4; 0x00d5; 0x00d6; 0x00d7; 0x00d8; 0x0172; 0x00da; 0x00db; 0x00dc; 0x0168; 0x016a; 0x00df;
   0x0101; 0x00e1; 0x00e2; 0x00e3; 0x00e4; 0x00e5; 0x00e6; 0x012f; 0x010d; 0x00e9; 0x0119; 0x00eb; 0x0117; 0x00ed; 0x00ee; 0x012b;
   0x0111; 0x0146; 0x014d; 0x0137; 0x00f4; 0x00f5; 0x00f6; 0x00f7; 0x00f8; 0x0173; 0x00fa; 0x00fb; 0x00fc; 0x0169; 0x016b; 0x02d9].
(** iso8859_4.h lines 57-87 *)
Definition iso8859_4_page00 : list Z :=
  [0xa0; 0x00; 0x00; 0x00; 0xa4; 0x00; 0x00; 0xa7; 0xa8; 0x00; 0x00; 0x00; 0x00; 0xad; 0x00; 0xaf;
   0xb0; 0x00; 0x00; 0x00; 0xb4; 0x00; 0x00; 0x00; 0xb8; 0x00; 0x00; 0x00; 0x00; 0x00; 0x00; 0x00;
   0x00; 0xc1; 0xc2; 0xc3; 0xc4; 0xc5; 0xc6; 0x00; 0x00; 0xc9; 0x00; 0xcb; 0x00; 0xcd; 0xce; 0x00;
   0x00; 0x00; 0x00; 0x00; 0xd4; 0xd5; 0xd6; 0xd7; 0xd8; 0x00; 0xda; 0xdb; 0xdc; 0x00; 0x00; 0xdf;
   0x00; 0xe1; 0xe2; 0xe3; 0xe4; 0xe5; 0xe6; 0x00; 0x00; 0xe9; 0x00; 0xeb; 0x00; 0xed; 0xee; 0x00;
   0x00; 0x00; 0x00; 0x00; 0xf4; 0xf5; 0xf6; 0xf7; 0xf8; 0x00; 0xfa; 0xfb; 0xfc; 0x00; 0x00; 0x00;
   0xc0; 0xe0; 0x00; 0x00; 0xa1; 0xb1; 0x00; 0x00; 0x00; 0x00; 0x00; 0x00; 0xc8; 0xe8; 0x00; 0x00;
   0xd0; 0xf0; 0xaa; 0xba; 0x00; 0x00; 0xcc; 0xec; 0xca; 0xea; 0x00; 0x00; 0x00; 0x00; 0x00; 0x00;
   0x00; 0x00; 0xab; 0xbb; 0x00; 0x00; 0x00; 0x00; 0xa5; 0xb5; 0xcf; 0xef; 0x00; 0x00; 0xc7; 0xe7;
   0x00; 0x00; 0x00; 0x00; 0x00; 0x00; 0xd3; 0xf3; 0xa2; 0x00; 0x00; 0xa6; 0xb6; 0x00; 0x00; 0x00;
   0x00; 0x00; 0x00; 0x00; 0x00; 0xd1; 0xf1; 0x00; 0x00; 0x00; 0xbd; 0xbf; 0xd2; 0xf2; 0x00; 0x00;
   0x00; 0x00; 0x00; 0x00; 0x00; 0x00; 0xa3; 0xb3; 0x00; 0x00; 0x00; 0x00; 0x00; 0x00; 0x00; 0x00;
   0xa9; 0xb9; 0x00; 0x00; 0x00; 0x00; 0xac; 0xbc; 0xdd; 0xfd; 0xde; 0xfe; 0x00; 0x00; 0x00; 0x00;
   0x00; 0x00; 0xd9; 0xf9; 0x00; 0x00; 0x00; 0x00; 0x00; 0x00; 0x00; 0x00; 0x00; 0xae; 0xbe; 0x00].
(** iso8859_4.h lines 88-93 *)
Definition iso8859_4_page02 : list Z :=
  [0x00; 0x00; 0x00; 0x00; 0x00; 0x00; 0x00; 0xb7; 0x00; 0x00; 0x00; 0x00; 0x00; 0x00; 0x00; 0x00;
   0x00; 0x00; 0x00; 0x00; 0x00; 0x00; 0x00; 0x00; 0x00; 0xff; 0x00; 0xb2; 0x00; 0x00; 0x00; 0x00].
(** iso8859_5.h lines 25-44 *)
Definition iso8859_5_2uni : list Z :=
  [0x00a0; 0x0401; 0x0402; 0x0403; 0x0404; 0x0405; 0x0406; 0x0407; 0x0408; 0x0409; 0x040a; 0x040b; 0x040c; 0x00ad; 0x040e; 0x040f;
   0x0410; 0x0411; 0x0412; 0x0413; 0x0414; 0x0415; 0x0416; 0x0417; 0x0418; 0x0419; 0x041a; 0x041b; 0x041c; 0x041d; 0x041e; 0x041f;
   0x0420; 0x0421; 0x0422; 0x0423; 0x0424; 0x0425; 0x0426; 0x0427; 0x0428; 0x0429; 0x042a; 0x042b; 0x042c; 0x042d; 0x042e; 0x042f;
   0x0430; 0x0431; 0x0432; 0x0433; 0x0434; 0x0435; 0x0436; 0x0437; 0x0438; 0x0439; 0x043a; 0x043b; 0x043c; 0x043d; 0x043e; 0x043f;
   0x0440; 0x0441; 0x0442; 0x0443; 0x0444; 0x0445; 0x0446; 0x0447; 0x0448; 0x0449; 0x044a; 0x044b; 0x044c; 0x044d; 0x044e; 0x044f;
   0x2116; 0x0451; 0x0452; 0x0453; 0x0454; 0x0455; 0x0456; 0x0457; 0x0458; 0x0459; 0x045a; 0x045b; 0x045c; 0x00a7; 0x045e; 0x045f].
(** iso8859_5.h lines 57-60 *)
Definition iso8859_5_page00 : list Z :=
  [0xa0; 0x00; 0x00; 0x00; 0x00; 0x00; 0x00; 0xfd; 0x00; 0x00; 0x00; 0x00; 0x00; 0xad; 0x00; 0x00].
(** iso8859_5.h lines 61-74 *)
Definition iso8859_5_page04 : list Z :=
  [0x00; 0xa1; 0xa2; 0xa3; 0xa4; 0xa5; 0xa6; 0xa7; 0xa8; 0xa9; 0xaa; 0xab; 0xac; 0x00; 0xae; 0xaf;
   0xb0; 0xb1; 0xb2; 0xb3; 0xb4; 0xb5; 0xb6; 0xb7; 0xb8; 0xb9; 0xba; 0xbb; 0xbc; 0xbd; 0xbe; 0xbf;
   0xc0; 0xc1; 0xc2; 0xc3; 0xc4; 0xc5; 0xc6; 0xc7; 0xc8; 0xc9; 0xca; 0xcb; 0xcc; 0xcd; 0xce; 0xcf;
   0xd0; 0xd1; 0xd2; 0xd3; 0xd4; 0xd5; 0xd6; 0xd7; 0xd8; 0xd9; 0xda; 0xdb; 0xdc; 0xdd; 0xde; 0xdf;
   0xe0; 0xe1; 0xe2; 0xe3; 0xe4; 0xe5; 0xe6; 0xe7; 0xe8; 0xe9; 0xea; 0xeb; 0xec; 0xed; 0xee; 0xef;
   0x00; 0xf1; 0xf2; 0xf3; 0xf4; 0xf5; 0xf6; 0xf7; 0xf8; 0xf9; 0xfa; 0xfb; 0xfc; 0x00; 0xfe; 0xff].
(** iso8859_6.h lines 25-44 *)
Definition iso8859_6_2uni : list Z :=
  [0x00a0; 0xfffd; 0xfffd; 0xfffd; 0x00a4; 0xfffd; 0xfffd; 0xfffd; 0xfffd; 0xfffd; 0xfffd; 0xfffd; 0x060c; 0x00ad; 0xfffd; 0xfffd;
   0xfffd; 0xfffd; 0xfffd; 0xfffd; 0xfffd; 0xfffd; 0xfffd; 0xfffd; 0xfffd; 0xfffd; 0xfffd; 0x061b; 0xfffd; 0xfffd; 0xfffd; 0x061f;
   0xfffd; 0x0621; 0x0622; 0x0623; 0x0624; 0x0625; 0x0626; 0x0627; 0x0628; 0x0629; 0x062a; 0x062b; 0x062c; 0x062d; 0x062e; 0x062f;
   0x0630; 0x0631; 0x0632; 0x0633; 0x0634; 0x0635; 0x0636; 0x0637; 0x0638; 0x0639; 0x063a; 0xfffd; 0xfffd; 0xfffd; 0xfffd; 0xfffd;
   0x0640; 0x0641; 0x0642; 0x0643; 0x0644; 0x0645; 0x0646; 0x0647; 0x0648; 0x0649; 0x064a; 0x064b; 0x064c; 0x064d; 0x064e; 0x064f;
   0x0650; 0x0651; 0x0652; 0xfffd; 0xfffd; 0xfffd; 0xfffd; 0xfffd; 0xfffd; 0xfffd; 0xfffd; 0xfffd; 0xfffd; 0xfffd; 0xfffd; 0xfffd].
(** iso8859_6.h lines 64-67 *)
Definition iso8859_6_page00 : list Z :=
  [0xa0; 0x00; 0x00; 0x00; 0xa4; 0x00; 0x00; 0x00; 0x00; 0x00; 0x00; 0x00; 0x00; 0xad; 0x00; 0x00].
(** iso8859_6.h lines 68-79 *)
Definition iso8859_6_page06 : list Z :=
  [0x00; 0x00; 0x00; 0x00; 0xac; 0x00; 0x00; 0x00; 0x00; 0x00; 0x00; 0x00; 0x00; 0x00; 0x00; 0x00;
   0x00; 0x00; 0x00; 0xbb; 0x00; 0x00; 0x00; 0xbf; 0x00; 0xc1; 0xc2; 0xc3; 0xc4; 0xc5; 0xc6; 0xc7;
   0xc8; 0xc9; 0xca; 0xcb; 0xcc; 0xcd; 0xce; 0xcf; 0xd0; 0xd1; 0xd2; 0xd3; 0xd4; 0xd5; 0xd6; 0xd7;
   0xd8; 0xd9; 0xda; 0x00; 0x00; 0x00; 0x00; 0x00; 0xe0; 0xe1; 0xe2; 0xe3; 0xe4; 0xe5; 0xe6; 0xe7;
   0xe8; 0xe9; 0xea; 0xeb; 0xec; 0xed; 0xee; 0xef; 0xf0; 0xf1; 0xf2; 0x00; 0x00; 0x00; 0x00; 0x00].
(** iso8859_7.h lines 25-44 *)
Definition iso8859_7_2uni : list Z :=
  [0x00a0; 0x2018; 0x2019; 0x00a3; 0x20ac; 0x20af; 0x00a6; 0x00a7; 0x00a8; 0x00a9; 0x037a; 0x00ab; 0x00ac; 0x00ad; 0xfffd; 0x2015;
   0x00b0; 0x00b1; 0x00b2; 0x00b3; 0x0384; 0x0385; 0x0386; 0x00b7; 0x0388; 0x0389; 0x038a; 0x00bb; 0x038c; 0x00bd; 0x038e; 0x038f;
   0x0390; 0x0391; 0x0392; 0x0393; 0x0394; 0x0395; 0x0396; 0x0397; 0x0398; 0x0399; 0x039a; 0x039b; 0x039c; 0x039d; 0x039e; 0x039f;
   0x03a0; 0x03a1; 0xfffd; 0x03a3; 0x03a4; 0x03a5; 0x03a6; 0x03a7; 0x03a8; 0x03a9; 0x03aa; 0x03ab; 0x03ac; 0x03ad; 0x03ae; 0x03af;
   0x03b0; 0x03b1; 0x03b2; 0x03b3; 0x03b4; 0x03b5; 0x03b6; 0x03b7; 0x03b8; 0x03b9; 0x03ba; 0x03bb; 0x03bc; 0x03bd; 0x03be; 0x03bf;
   0x03c0; 0x03c1; 0x03c2; 0x03c3; 0x03c4; 0x03c5; 0x03c6; 0x03c7; 0x03c8; 0x03c9; 0x03ca; 0x03cb; 0x03cc; 0x03cd; 0x03ce; 0xfffd].
(** iso8859_7.h lines 64-69 *)
Definition iso8859_7_page00 : list Z :=
  [0xa0; 0x00; 0x00; 0xa3; 0x00; 0x00; 0xa6; 0xa7; 0xa8; 0xa9; 0x00; 0xab; 0xac; 0xad; 0x00; 0x00;
   0xb0; 0xb1; 0xb2; 0xb3; 0x00; 0x00; 0x00; 0xb7; 0x00; 0x00; 0x00; 0xbb; 0x00; 0xbd; 0x00; 0x00].
(** iso8859_7.h lines 70-82 *)
Definition iso8859_7_page03 : list Z :=
  [0x00; 0x00; 0xaa; 0x00; 0x00; 0x00; 0x00; 0x00; 0x00; 0x00; 0x00; 0x00; 0xb4; 0xb5; 0xb6; 0x00;
   0xb8; 0xb9; 0xba; 0x00; 0xbc; 0x00; 0xbe; 0xbf; 0xc0; 0xc1; 0xc2; 0xc3; 0xc4; 0xc5; 0xc6; 0xc7;
   0xc8; 0xc9; 0xca; 0xcb; 0xcc; 0xcd; 0xce; 0xcf; 0xd0; 0xd1; 0x00; 0xd3; 0xd4; 0xd5; 0xd6; 0xd7;
   0xd8; 0xd9; 0xda; 0xdb; 0xdc; 0xdd; 0xde; 0xdf; 0xe0; 0xe1; 0xe2; 0xe3; 0xe4; 0xe5; 0xe6; 0xe7;
   0xe8; 0xe9; 0xea; 0xeb; 0xec; 0xed; 0xee; 0xef; 0xf0; 0xf1; 0xf2; 0xf3; 0xf4; 0xf5; 0xf6; 0xf7;
   0xf8; 0xf9; 0xfa; 0xfb; 0xfc; 0xfd; 0xfe; 0x00].
(** iso8859_7.h lines 83-86 *)
Definition iso8859_7_page20 : list Z :=
  [0x00; 0x00; 0x00; 0x00; 0x00; 0xaf; 0x00; 0x00; 0xa1; 0xa2; 0x00; 0x00; 0x00; 0x00; 0x00; 0x00].
(** iso8859_8.h lines 25-44 *)
Definition iso8859_8_2uni : list Z :=
  [0x00a0; 0xfffd; 0x00a2; 0x00a3; 0x00a4; 0x00a5; 0x00a6; 0x00a7; 0x00a8; 0x00a9; 0x00d7; 0x00ab; 0x00ac; 0x00ad; 0x00ae; 0x00af;
   0x00b0; 0x00b1; 0x00b2; 0x00b3; 0x00b4; 0x00b5; 0x00b6; 0x00b7; 0x00b8; 0x00b9; 0x00f7; 0x00bb; 0x00bc; 0x00bd; 0x00be; 0xfffd;
   0xfffd; 0xfffd; 0xfffd; 0xfffd; 0xfffd; 0xfffd; 0xfffd; 0xfffd; 0xfffd; 0xfffd; 0xfffd; 0xfffd; 0xfffd; 0xfffd; 0xfffd; 0xfffd;
   0xfffd; 0xfffd; 0xfffd; 0xfffd; 0xfffd; 0xfffd; 0xfffd; 0xfffd; 0xfffd; 0xfffd; 0xfffd; 0xfffd; 0xfffd; 0xfffd; 0xfffd; 0x2017;
   0x05d0; 0x05d1; 0x05d2; 0x05d3; 0x05d4; 0x05d5; 0x05d6; 0x05d7; 0x05d8; 0x05d9; 0x05da; 0x05db; 0x05dc; 0x05dd; 0x05de; 0x05df;
   0x05e0; 0x05e1; 0x05e2; 0x05e3; 0x05e4; 0x05e5; 0x05e6; 0x05e7; 0x05e8; 0x05e9; 0x05ea; 0xfffd; 0xfffd; 0x200e; 0x200f; 0xfffd].
(** iso8859_8.h lines 64-76 *)
Definition iso8859_8_page00 : list Z :=
  [0xa0; 0x00; 0xa2; 0xa3; 0xa4; 0xa5; 0xa6; 0xa7; 0xa8; 0xa9; 0x00; 0xab; 0xac; 0xad; 0xae; 0xaf;
   0xb0; 0xb1; 0xb2; 0xb3; 0xb4; 0xb5; 0xb6; 0xb7; 0xb8; 0xb9; 0x00; 0xbb; 0xbc; 0xbd; 0xbe; 0x00;
   0x00; 0x00; 0x00; 0x00; 0x00; 0x00; 0x00; 0x00; 0x00; 0x00; 0x00; 0x00; 0x00; 0x00; 0x00; 0x00;
   0x00; 0x00; 0x00; 0x00; 0x00; 0x00; 0x00; 0xaa; 0x00; 0x00; 0x00; 0x00; 0x00; 0x00; 0x00; 0x00;
   0x00; 0x00; 0x00; 0x00; 0x00; 0x00; 0x00; 0x00; 0x00; 0x00; 0x00; 0x00; 0x00; 0x00; 0x00; 0x00;
   0x00; 0x00; 0x00; 0x00; 0x00; 0x00; 0x00; 0xba].
(** iso8859_8.h lines 77-82 *)
Definition iso8859_8_page05 : list Z :=
  [0xe0; 0xe1; 0xe2; 0xe3; 0xe4; 0xe5; 0xe6; 0xe7; 0xe8; 0xe9; 0xea; 0xeb; 0xec; 0xed; 0xee; 0xef;
   0xf0; 0xf1; 0xf2; 0xf3; 0xf4; 0xf5; 0xf6; 0xf7; 0xf8; 0xf9; 0xfa; 0x00; 0x00; 0x00; 0x00; 0x00].
(** iso8859_8.h lines 83-86 *)
Definition iso8859_8_page20 : list Z :=
  [0x00; 0x00; 0x00; 0x00; 0x00; 0x00; 0xfd; 0xfe; 0x00; 0x00; 0x00; 0x00; 0x00; 0x00; 0x00; 0xdf].
(** iso8859_9.h lines 25-35 *)
Definition iso8859_9_2uni : list Z :=
  [0x011e; 0x00d1; 0x00d2; 0x00d3; 0x00d4; 0x00d5; 0x00d6; 0x00d7; 0x00d8; 0x00d9; 0x00da; 0x00db; 0x00dc; 0x0130; 0x015e; 0x00df;
   0x00e0; 0x00e1; 0x00e2; 0x00e3; 0x00e4; 0x00e5; 0x00e6; 0x00e7; 0x00e8; 0x00e9; 0x00ea; 0x00eb; 0x00ec; 0x00ed; 0x00ee; 0x00ef;
   0x011f; 0x00f1; 0x00f2; 0x00f3; 0x00f4; 0x00f5; 0x00f6; 0x00f7; 0x00f8; 0x00f9; 0x00fa; 0x00fb; 0x00fc; 0x0131; 0x015f; 0x00ff].
(** iso8859_9.h lines 48-55 *)
Definition iso8859_9_page00 : list Z :=
  [0x00; 0xd1; 0xd2; 0xd3; 0xd4; 0xd5; 0xd6; 0xd7; 0xd8; 0xd9; 0xda; 0xdb; 0xdc; 0x00; 0x00; 0xdf;
   0xe0; 0xe1; 0xe2; 0xe3; 0xe4; 0xe5; 0xe6; 0xe7; 0xe8; 0xe9; 0xea; 0xeb; 0xec; 0xed; 0xee; 0xef;
   0x00; 0xf1; 0xf2; 0xf3; 0xf4; 0xf5; 0xf6; 0xf7; 0xf8; 0xf9; 0xfa; 0xfb; 0xfc; 0x00; 0x00; 0xff].
(** iso8859_9.h lines 56-66 *)
Definition iso8859_9_page01 : list Z :=
  [0x00; 0x00; 0x00; 0x00; 0x00; 0x00; 0xd0; 0xf0; 0x00; 0x00; 0x00; 0x00; 0x00; 0x00; 0x00; 0x00;
   0x00; 0x00; 0x00; 0x00; 0x00; 0x00; 0x00; 0x00; 0xdd; 0xfd; 0x00; 0x00; 0x00; 0x00; 0x00; 0x00;
   0x00; 0x00; 0x00; 0x00; 0x00; 0x00; 0x00; 0x00; 0x00; 0x00; 0x00; 0x00; 0x00; 0x00; 0x00; 0x00;
   0x00; 0x00; 0x00; 0x00; 0x00; 0x00; 0x00; 0x00; 0x00; 0x00; 0x00; 0x00; 0x00; 0x00; 0x00; 0x00;
   0x00; 0x00; 0x00; 0x00; 0x00; 0x00; 0xde; 0xfe].
(** iso8859_10.h lines 25-44 *)
Definition iso8859_10_2uni : list Z :=
  [0x00a0; 0x0104; 0x0112; 0x0122; 0x012a; 0x0128; 0x0136; 0x00a7; 0x013b; 0x0110; 0x0160; 0x0166; 0x017d; 0x00ad; 0x016a; 0x014a;
   0x00b0; 0x0105; 0x0113; 0x0123; 0x012b; 0x0129; 0x0137; 0x00b7; 0x013c; 0x0111; 0x0161; 0x0167; 0x017e; 0x2015; 0x016b; 0x014b;
   0x0100; 0x00c1; 0x00c2; 0x00c3; 0x00c4; 0x00c5; 0x00c6; 0x012e; 0x010c; 0x00c9; 0x0118; 0x00cb; 0x0116; 0x00cd; 0x00ce; 0x00cf;
   0x00d0; 0x0145; 0x014c; 0x00d3; 0x00d4; 0x00d5; 0x00d6; 0x0168; 0x00d8; 0x0172; 0x00da; 0x00db; 0x00dc; 0x00dd; 0x00de; 0x00df;
   0x0101; 0x00e1; 0x00e2; 0x00e3; 0x00e4; 0x00e5; 0x00e6; 0x012f; 0x010d; 0x00e9; 0x0119; 0x00eb; 0x0117; 0x00ed; 0x00ee; 0x00ef;
   0x00f0; 0x0146; 0x014d; 0x00f3; 0x00f4; 0x00f5; 0x00f6; 0x0169; 0x00f8; 0x0173; 0x00fa; 0x00fb; 0x00fc; 0x00fd; 0x00fe; 0x0138].
(** iso8859_10.h lines 57-87 *)
Definition iso8859_10_page00 : list Z :=
  [0xa0; 0x00; 0x00; 0x00; 0x00; 0x00; 0x00; 0xa7; 0x00; 0x00; 0x00; 0x00; 0x00; 0xad; 0x00; 0x00;
   0xb0; 0x00; 0x00; 0x00; 0x00; 0x00; 0x00; 0xb7; 0x00; 0x00; 0x00; 0x00; 0x00; 0x00; 0x00; 0x00;
   0x00; 0xc1; 0xc2; 0xc3; 0xc4; 0xc5; 0xc6; 0x00; 0x00; 0xc9; 0x00; 0xcb; 0x00; 0xcd; 0xce; 0xcf;
   0xd0; 0x00; 0x00; 0xd3; 0xd4; 0xd5; 0xd6; 0x00; 0xd8; 0x00; 0xda; 0xdb; 0xdc; 0xdd; 0xde; 0xdf;
   0x00; 0xe1; 0xe2; 0xe3; 0xe4; 0xe5; 0xe6; 0x00; 0x00; 0xe9; 0x00; 0xeb; 0x00; 0xed; 0xee; 0xef;
   0xf0; 0x00; 0x00; 0xf3; 0xf4; 0xf5; 0xf6; 0x00; 0xf8; 0x00; 0xfa; 0xfb; 0xfc; 0xfd; 0xfe; 0x00;
   0xc0; 0xe0; 0x00; 0x00; 0xa1; 0xb1; 0x00; 0x00; 0x00; 0x00; 0x00; 0x00; 0xc8; 0xe8; 0x00; 0x00;
   0xa9; 0xb9; 0xa2; 0xb2; 0x00; 0x00; 0xcc; 0xec; 0xca; 0xea; 0x00; 0x00; 0x00; 0x00; 0x00; 0x00;
   0x00; 0x00; 0xa3; 0xb3; 0x00; 0x00; 0x00; 0x00; 0xa5; 0xb5; 0xa4; 0xb4; 0x00; 0x00; 0xc7; 0xe7;
   0x00; 0x00; 0x00; 0x00; 0x00; 0x00; 0xa6; 0xb6; 0xff; 0x00; 0x00; 0xa8; 0xb8; 0x00; 0x00; 0x00;
   0x00; 0x00; 0x00; 0x00; 0x00; 0xd1; 0xf1; 0x00; 0x00; 0x00; 0xaf; 0xbf; 0xd2; 0xf2; 0x00; 0x00;
   0x00; 0x00; 0x00; 0x00; 0x00; 0x00; 0x00; 0x00; 0x00; 0x00; 0x00; 0x00; 0x00; 0x00; 0x00; 0x00;
   0xaa; 0xba; 0x00; 0x00; 0x00; 0x00; 0xab; 0xbb; 0xd7; 0xf7; 0xae; 0xbe; 0x00; 0x00; 0x00; 0x00;
   0x00; 0x00; 0xd9; 0xf9; 0x00; 0x00; 0x00; 0x00; 0x00; 0x00; 0x00; 0x00; 0x00; 0xac; 0xbc; 0x00].
(** iso8859_13.h lines 25-44 *)
Definition iso8859_13_2uni : list Z :=
  [0x00a0; 0x201d; 0x00a2; 0x00a3; 0x00a4; 0x201e; 0x00a6; 0x00a7; 0x00d8; 0x00a9; 0x0156; 0x00ab; 0x00ac; 0x00ad; 0x00ae; 0x00c6;
   0x00b0; 0x00b1; 0x00b2; 0x00b3; 0x201c; 0x00b5; 0x00b6; 0x00b7; 0x00f8; 0x00b9; 0x0157; 0x00bb; 0x00bc; 0x00bd; 0x00be; 0x00e6;
   0x0104; 0x012e; 0x0100; 0x0106; 0x00c4; 0x00c5; 0x0118; 0x0112; 0x010c; 0x00c9; 0x0179; 0x0116; 0x0122; 0x0136; 0x012a; 0x013b;
   0x0160; 0x0143; 0x0145; 0x00d3; 0x014c; 0x00d5; 0x00d6; 0x00d7; 0x0172; 0x0141; 0x015a; 0x016a; 0x00dc; 0x017b; 0x017d; 0x00df;
   0x0105; 0x012f; 0x0101; 0x0107; 0x00e4; 0x00e5; 0x0119; 0x0113; 0x010d; 0x00e9; 0x017a; 0x0117; 0x0123; 0x0137; 0x012b; 0x013c;
   0x0161; 0x0144; 0x0146; 0x00f3; 0x014d; 0x00f5; 0x00f6; 0x00f7; 0x0173; 0x0142; 0x015b; 0x016b; 0x00fc; 0x017c; 0x017e; 0x2019].
(** iso8859_13.h lines 57-87 *)
Definition iso8859_13_page00 : list Z :=
  [0xa0; 0x00; 0xa2; 0xa3; 0xa4; 0x00; 0xa6; 0xa7; 0x00; 0xa9; 0x00; 0xab; 0xac; 0xad; 0xae; 0x00;
   0xb0; 0xb1; 0xb2; 0xb3; 0x00; 0xb5; 0xb6; 0xb7; 0x00; 0xb9; 0x00; 0xbb; 0xbc; 0xbd; 0xbe; 0x00;
   0x00; 0x00; 0x00; 0x00; 0xc4; 0xc5; 0xaf; 0x00; 0x00; 0xc9; 0x00; 0x00; 0x00; 0x00; 0x00; 0x00;
   0x00; 0x00; 0x00; 0xd3; 0x00; 0xd5; 0xd6; 0xd7; 0xa8; 0x00; 0x00; 0x00; 0xdc; 0x00; 0x00; 0xdf;
   0x00; 0x00; 0x00; 0x00; 0xe4; 0xe5; 0xbf; 0x00; 0x00; 0xe9; 0x00; 0x00; 0x00; 0x00; 0x00; 0x00;
   0x00; 0x00; 0x00; 0xf3; 0x00; 0xf5; 0xf6; 0xf7; 0xb8; 0x00; 0x00; 0x00; 0xfc; 0x00; 0x00; 0x00;
   0xc2; 0xe2; 0x00; 0x00; 0xc0; 0xe0; 0xc3; 0xe3; 0x00; 0x00; 0x00; 0x00; 0xc8; 0xe8; 0x00; 0x00;
   0x00; 0x00; 0xc7; 0xe7; 0x00; 0x00; 0xcb; 0xeb; 0xc6; 0xe6; 0x00; 0x00; 0x00; 0x00; 0x00; 0x00;
   0x00; 0x00; 0xcc; 0xec; 0x00; 0x00; 0x00; 0x00; 0x00; 0x00; 0xce; 0xee; 0x00; 0x00; 0xc1; 0xe1;
   0x00; 0x00; 0x00; 0x00; 0x00; 0x00; 0xcd; 0xed; 0x00; 0x00; 0x00; 0xcf; 0xef; 0x00; 0x00; 0x00;
   0x00; 0xd9; 0xf9; 0xd1; 0xf1; 0xd2; 0xf2; 0x00; 0x00; 0x00; 0x00; 0x00; 0xd4; 0xf4; 0x00; 0x00;
   0x00; 0x00; 0x00; 0x00; 0x00; 0x00; 0xaa; 0xba; 0x00; 0x00; 0xda; 0xfa; 0x00; 0x00; 0x00; 0x00;
   0xd0; 0xf0; 0x00; 0x00; 0x00; 0x00; 0x00; 0x00; 0x00; 0x00; 0xdb; 0xfb; 0x00; 0x00; 0x00; 0x00;
   0x00; 0x00; 0xd8; 0xf8; 0x00; 0x00; 0x00; 0x00; 0x00; 0xca; 0xea; 0xdd; 0xfd; 0xde; 0xfe; 0x00].
(** iso8859_13.h lines 88-90 *)
Definition iso8859_13_page20 : list Z :=
  [0x00; 0xff; 0x00; 0x00; 0xb4; 0xa1; 0xa5; 0x00].
(** iso8859_14.h lines 25-44 *)
Definition iso8859_14_2uni : list Z :=
  [0x00a0; 0x1e02; 0x1e03; 0x00a3; 0x010a; 0x010b; 0x1e0a; 0x00a7; 0x1e80; 0x00a9; 0x1e82; 0x1e0b; 0x1ef2; 0x00ad; 0x00ae; 0x0178;
   0x1e1e; 0x1e1f; 0x0120; 0x0121; 0x1e40; 0x1e41; 0x00b6; 0x1e56; 0x1e81; 0x1e57; 0x1e83; 0x1e60; 0x1ef3; 0x1e84; 0x1e85; 0x1e61;
   0x00c0; 0x00c1; 0x00c2; 0x00c3; 0x00c4; 0x00c5; 0x00c6; 0x00c7; 0x00c8; 0x00c9; 0x00ca; 0x00cb; 0x00cc; 0x00cd; 0x00ce; 0x00cf;
   0x0174; 0x00d1; 0x00d2; 0x00d3; 0x00d4; 0x00d5; 0x00d6; 0x1e6a; 0x00d8; 0x00d9; 0x00da; 0x00db; 0x00dc; 0x00dd; 0x0176; 0x00df;
   0x00e0; 0x00e1; 0x00e2; 0x00e3; 0x00e4; 0x00e5; 0x00e6; 0x00e7; 0x00e8; 0x00e9; 0x00ea; 0x00eb; 0x00ec; 0x00ed; 0x00ee; 0x00ef;
   0x0175; 0x00f1; 0x00f2; 0x00f3; 0x00f4; 0x00f5; 0x00f6; 0x1e6b; 0x00f8; 0x00f9; 0x00fa; 0x00fb; 0x00fc; 0x00fd; 0x0177; 0x00ff].
(** iso8859_14.h lines 57-70 *)
Definition iso8859_14_page00 : list Z :=
  [0xa0; 0x00; 0x00; 0xa3; 0x00; 0x00; 0x00; 0xa7; 0x00; 0xa9; 0x00; 0x00; 0x00; 0xad; 0xae; 0x00;
   0x00; 0x00; 0x00; 0x00; 0x00; 0x00; 0xb6; 0x00; 0x00; 0x00; 0x00; 0x00; 0x00; 0x00; 0x00; 0x00;
   0xc0; 0xc1; 0xc2; 0xc3; 0xc4; 0xc5; 0xc6; 0xc7; 0xc8; 0xc9; 0xca; 0xcb; 0xcc; 0xcd; 0xce; 0xcf;
   0x00; 0xd1; 0xd2; 0xd3; 0xd4; 0xd5; 0xd6; 0x00; 0xd8; 0xd9; 0xda; 0xdb; 0xdc; 0xdd; 0x00; 0xdf;
   0xe0; 0xe1; 0xe2; 0xe3; 0xe4; 0xe5; 0xe6; 0xe7; 0xe8; 0xe9; 0xea; 0xeb; 0xec; 0xed; 0xee; 0xef;
   0x00; 0xf1; 0xf2; 0xf3; 0xf4; 0xf5; 0xf6; 0x00; 0xf8; 0xf9; 0xfa; 0xfb; 0xfc; 0xfd; 0x00; 0xff].
(** iso8859_14.h lines 71-76 *)
Definition iso8859_14_page01_0 : list Z :=
  [0x00; 0x00; 0xa4; 0xa5; 0x00; 0x00; 0x00; 0x00; 0x00; 0x00; 0x00; 0x00; 0x00; 0x00; 0x00; 0x00;
   0x00; 0x00; 0x00; 0x00; 0x00; 0x00; 0x00; 0x00; 0xb2; 0xb3; 0x00; 0x00; 0x00; 0x00; 0x00; 0x00].
(** iso8859_14.h lines 77-80 *)
Definition iso8859_14_page01_1 : list Z :=
  [0x00; 0x00; 0x00; 0x00; 0xd0; 0xf0; 0xde; 0xfe; 0xaf; 0x00; 0x00; 0x00; 0x00; 0x00; 0x00; 0x00].
(** iso8859_14.h lines 81-99 *)
Definition iso8859_14_page1e_0 : list Z :=
  [0x00; 0x00; 0xa1; 0xa2; 0x00; 0x00; 0x00; 0x00; 0x00; 0x00; 0xa6; 0xab; 0x00; 0x00; 0x00; 0x00;
   0x00; 0x00; 0x00; 0x00; 0x00; 0x00; 0x00; 0x00; 0x00; 0x00; 0x00; 0x00; 0x00; 0x00; 0xb0; 0xb1;
   0x00; 0x00; 0x00; 0x00; 0x00; 0x00; 0x00; 0x00; 0x00; 0x00; 0x00; 0x00; 0x00; 0x00; 0x00; 0x00;
   0x00; 0x00; 0x00; 0x00; 0x00; 0x00; 0x00; 0x00; 0x00; 0x00; 0x00; 0x00; 0x00; 0x00; 0x00; 0x00;
   0xb4; 0xb5; 0x00; 0x00; 0x00; 0x00; 0x00; 0x00; 0x00; 0x00; 0x00; 0x00; 0x00; 0x00; 0x00; 0x00;
   0x00; 0x00; 0x00; 0x00; 0x00; 0x00; 0xb7; 0xb9; 0x00; 0x00; 0x00; 0x00; 0x00; 0x00; 0x00; 0x00;
   0xbb; 0xbf; 0x00; 0x00; 0x00; 0x00; 0x00; 0x00; 0x00; 0x00; 0xd7; 0xf7; 0x00; 0x00; 0x00; 0x00;
   0x00; 0x00; 0x00; 0x00; 0x00; 0x00; 0x00; 0x00; 0x00; 0x00; 0x00; 0x00; 0x00; 0x00; 0x00; 0x00;
   0xa8; 0xb8; 0xaa; 0xba; 0xbd; 0xbe; 0x00; 0x00].
(** iso8859_14.h lines 100-102 *)
Definition iso8859_14_page1e_1 : list Z :=
  [0x00; 0x00; 0xac; 0xbc; 0x00; 0x00; 0x00; 0x00].
(** iso8859_15.h lines 25-32 *)
Definition iso8859_15_2uni : list Z :=
  [0x00a0; 0x00a1; 0x00a2; 0x00a3; 0x20ac; 0x00a5; 0x0160; 0x00a7; 0x0161; 0x00a9; 0x00aa; 0x00ab; 0x00ac; 0x00ad; 0x00ae; 0x00af;
   0x00b0; 0x00b1; 0x00b2; 0x00b3; 0x017d; 0x00b5; 0x00b6; 0x00b7; 0x017e; 0x00b9; 0x00ba; 0x00bb; 0x0152; 0x0153; 0x0178; 0x00bf].
(** iso8859_15.h lines 45-50 *)
Definition iso8859_15_page00 : list Z :=
  [0xa0; 0xa1; 0xa2; 0xa3; 0x00; 0xa5; 0x00; 0xa7; 0x00; 0xa9; 0xaa; 0xab; 0xac; 0xad; 0xae; 0xaf;
   0xb0; 0xb1; 0xb2; 0xb3; 0x00; 0xb5; 0xb6; 0xb7; 0x00; 0xb9; 0xba; 0xbb; 0x00; 0x00; 0x00; 0xbf].
(** iso8859_15.h lines 51-58 *)
Definition iso8859_15_page01 : list Z :=
  [0x00; 0x00; 0xbc; 0xbd; 0x00; 0x00; 0x00; 0x00; 0x00; 0x00; 0x00; 0x00; 0x00; 0x00; 0x00; 0x00;
   0xa6; 0xa8; 0x00; 0x00; 0x00; 0x00; 0x00; 0x00; 0x00; 0x00; 0x00; 0x00; 0x00; 0x00; 0x00; 0x00;
   0x00; 0x00; 0x00; 0x00; 0x00; 0x00; 0x00; 0x00; 0xbe; 0x00; 0x00; 0x00; 0x00; 0xb4; 0xb8; 0x00].
(** iso8859_16.h lines 25-44 *)
Definition iso8859_16_2uni : list Z :=
  [0x00a0; 0x0104; 0x0105; 0x0141; 0x20ac; 0x201e; 0x0160; 0x00a7; 0x0161; 0x00a9; 0x0218; 0x00ab; 0x0179; 0x00ad; 0x017a; 0x017b;
   0x00b0; 0x00b1; 0x010c; 0x0142; 0x017d; 0x201d; 0x00b6; 0x00b7; 0x017e; 0x010d; 0x0219; 0x00bb; 0x0152; 0x0153; 0x0178; 0x017c;
   0x00c0; 0x00c1; 0x00c2; 0x0102; 0x00c4; 0x0106; 0x00c6; 0x00c7; 0x00c8; 0x00c9; 0x00ca; 0x00cb; 0x00cc; 0x00cd; 0x00ce; 0x00cf;
   0x0110; 0x0143; 0x00d2; 0x00d3; 0x00d4; 0x0150; 0x00d6; 0x015a; 0x0170; 0x00d9; 0x00da; 0x00db; 0x00dc; 0x0118; 0x021a; 0x00df;
   0x00e0; 0x00e1; 0x00e2; 0x0103; 0x00e4; 0x0107; 0x00e6; 0x00e7; 0x00e8; 0x00e9; 0x00ea; 0x00eb; 0x00ec; 0x00ed; 0x00ee; 0x00ef;
   0x0111; 0x0144; 0x00f2; 0x00f3; 0x00f4; 0x0151; 0x00f6; 0x015b; 0x0171; 0x00f9; 0x00fa; 0x00fb; 0x00fc; 0x0119; 0x021b; 0x00ff].
(** iso8859_16.h lines 57-87 *)
Definition iso8859_16_page00 : list Z :=
  [0xa0; 0x00; 0x00; 0x00; 0x00; 0x00; 0x00; 0xa7; 0x00; 0xa9; 0x00; 0xab; 0x00; 0xad; 0x00; 0x00;
   0xb0; 0xb1; 0x00; 0x00; 0x00; 0x00; 0xb6; 0xb7; 0x00; 0x00; 0x00; 0xbb; 0x00; 0x00; 0x00; 0x00;
   0xc0; 0xc1; 0xc2; 0x00; 0xc4; 0x00; 0xc6; 0xc7; 0xc8; 0xc9; 0xca; 0xcb; 0xcc; 0xcd; 0xce; 0xcf;
   0x00; 0x00; 0xd2; 0xd3; 0xd4; 0x00; 0xd6; 0x00; 0x00; 0xd9; 0xda; 0xdb; 0xdc; 0x00; 0x00; 0xdf;
   0xe0; 0xe1; 0xe2; 0x00; 0xe4; 0x00; 0xe6; 0xe7; 0xe8; 0xe9; 0xea; 0xeb; 0xec; 0xed; 0xee; 0xef;
   0x00; 0x00; 0xf2; 0xf3; 0xf4; 0x00; 0xf6; 0x00; 0x00; 0xf9; 0xfa; 0xfb; 0xfc; 0x00; 0x00; 0xff;
   0x00; 0x00; 0xc3; 0xe3; 0xa1; 0xa2; 0xc5; 0xe5; 0x00; 0x00; 0x00; 0x00; 0xb2; 0xb9; 0x00; 0x00;
   0xd0; 0xf0; 0x00; 0x00; 0x00; 0x00; 0x00; 0x00; 0xdd; 0xfd; 0x00; 0x00; 0x00; 0x00; 0x00; 0x00;
   0x00; 0x00; 0x00; 0x00; 0x00; 0x00; 0x00; 0x00; 0x00; 0x00; 0x00; 0x00; 0x00; 0x00; 0x00; 0x00;
   0x00; 0x00; 0x00; 0x00; 0x00; 0x00; 0x00; 0x00; 0x00; 0x00; 0x00; 0x00; 0x00; 0x00; 0x00; 0x00;
   0x00; 0xa3; 0xb3; 0xd1; 0xf1; 0x00; 0x00; 0x00; 0x00; 0x00; 0x00; 0x00; 0x00; 0x00; 0x00; 0x00;
   0xd5; 0xf5; 0xbc; 0xbd; 0x00; 0x00; 0x00; 0x00; 0x00; 0x00; 0xd7; 0xf7; 0x00; 0x00; 0x00; 0x00;
   0xa6; 0xa8; 0x00; 0x00; 0x00; 0x00; 0x00; 0x00; 0x00; 0x00; 0x00; 0x00; 0x00; 0x00; 0x00; 0x00;
   0xd8; 0xf8; 0x00; 0x00; 0x00; 0x00; 0x00; 0x00; 0xbe; 0xac; 0xae; 0xaf; 0xbf; 0xb4; 0xb8; 0x00].
(** iso8859_16.h lines 88-90 *)
Definition iso8859_16_page02 : list Z :=
  [0xaa; 0xba; 0xde; 0xfe; 0x00; 0x00; 0x00; 0x00].
(** iso8859_16.h lines 91-93 *)
Definition iso8859_16_page20 : list Z :=
  [0x00; 0x00; 0x00; 0x00; 0x00; 0xb5; 0xa5; 0x00].
(** cp866.h lines 25-41 *)
Definition cp866_2uni : list Z :=
  [0x2591; 0x2592; 0x2593; 0x2502; 0x2524; 0x2561; 0x2562; 0x2556; 0x2555; 0x2563; 0x2551; 0x2557; 0x255d; 0x255c; 0x255b; 0x2510;
   0x2514; 0x2534; 0x252c; 0x251c; 0x2500; 0x253c; 0x255e; 0x255f; 0x255a; 0x2554; 0x2569; 0x2566; 0x2560; 0x2550; 0x256c; 0x2567;
   0x2568; 0x2564; 0x2565; 0x2559; 0x2558; 0x2552; 0x2553; 0x256b; 0x256a; 0x2518; 0x250c; 0x2588; 0x2584; 0x258c; 0x2590; 0x2580;
   0x0440; 0x0441; 0x0442; 0x0443; 0x0444; 0x0445; 0x0446; 0x0447; 0x0448; 0x0449; 0x044a; 0x044b; 0x044c; 0x044d; 0x044e; 0x044f;
   0x0401; 0x0451; 0x0404; 0x0454; 0x0407; 0x0457; 0x040e; 0x045e; 0x00b0; 0x2219; 0x00b7; 0x221a; 0x2116; 0x00a4; 0x25a0; 0x00a0].
(** cp866.h lines 56-60 *)
Definition cp866_page00 : list Z :=
  [0xff; 0x00; 0x00; 0x00; 0xfd; 0x00; 0x00; 0x00; 0x00; 0x00; 0x00; 0x00; 0x00; 0x00; 0x00; 0x00;
   0xf8; 0x00; 0x00; 0x00; 0x00; 0x00; 0x00; 0xfa].
(** cp866.h lines 61-74 *)
Definition cp866_page04 : list Z :=
  [0x00; 0xf0; 0x00; 0x00; 0xf2; 0x00; 0x00; 0xf4; 0x00; 0x00; 0x00; 0x00; 0x00; 0x00; 0xf6; 0x00;
   0x80; 0x81; 0x82; 0x83; 0x84; 0x85; 0x86; 0x87; 0x88; 0x89; 0x8a; 0x8b; 0x8c; 0x8d; 0x8e; 0x8f;
   0x90; 0x91; 0x92; 0x93; 0x94; 0x95; 0x96; 0x97; 0x98; 0x99; 0x9a; 0x9b; 0x9c; 0x9d; 0x9e; 0x9f;
   0xa0; 0xa1; 0xa2; 0xa3; 0xa4; 0xa5; 0xa6; 0xa7; 0xa8; 0xa9; 0xaa; 0xab; 0xac; 0xad; 0xae; 0xaf;
   0xe0; 0xe1; 0xe2; 0xe3; 0xe4; 0xe5; 0xe6; 0xe7; 0xe8; 0xe9; 0xea; 0xeb; 0xec; 0xed; 0xee; 0xef;
   0x00; 0xf1; 0x00; 0x00; 0xf3; 0x00; 0x00; 0xf5; 0x00; 0x00; 0x00; 0x00; 0x00; 0x00; 0xf7; 0x00].
(** cp866.h lines 75-77 *)
Definition cp866_page22 : list Z :=
  [0x00; 0xf9; 0xfb; 0x00; 0x00; 0x00; 0x00; 0x00].
(** cp866.h lines 78-100 *)
Definition cp866_page25 : list Z :=
  [0xc4; 0x00; 0xb3; 0x00; 0x00; 0x00; 0x00; 0x00; 0x00; 0x00; 0x00; 0x00; 0xda; 0x00; 0x00; 0x00;
   0xbf; 0x00; 0x00; 0x00; 0xc0; 0x00; 0x00; 0x00; 0xd9; 0x00; 0x00; 0x00; 0xc3; 0x00; 0x00; 0x00;
   0x00; 0x00; 0x00; 0x00; 0xb4; 0x00; 0x00; 0x00; 0x00; 0x00; 0x00; 0x00; 0xc2; 0x00; 0x00; 0x00;
   0x00; 0x00; 0x00; 0x00; 0xc1; 0x00; 0x00; 0x00; 0x00; 0x00; 0x00; 0x00; 0xc5; 0x00; 0x00; 0x00;
   0x00; 0x00; 0x00; 0x00; 0x00; 0x00; 0x00; 0x00; 0x00; 0x00; 0x00; 0x00; 0x00; 0x00; 0x00; 0x00;
   0xcd; 0xba; 0xd5; 0xd6; 0xc9; 0xb8; 0xb7; 0xbb; 0xd4; 0xd3; 0xc8; 0xbe; 0xbd; 0xbc; 0xc6; 0xc7;
   0xcc; 0xb5; 0xb6; 0xb9; 0xd1; 0xd2; 0xcb; 0xcf; 0xd0; 0xca; 0xd8; 0xd7; 0xce; 0x00; 0x00; 0x00;
   0x00; 0x00; 0x00; 0x00; 0x00; 0x00; 0x00; 0x00; 0x00; 0x00; 0x00; 0x00; 0x00; 0x00; 0x00; 0x00;
   0xdf; 0x00; 0x00; 0x00; 0xdc; 0x00; 0x00; 0x00; 0xdb; 0x00; 0x00; 0x00; 0xdd; 0x00; 0x00; 0x00;
   0xde; 0xb0; 0xb1; 0xb2; 0x00; 0x00; 0x00; 0x00; 0x00; 0x00; 0x00; 0x00; 0x00; 0x00; 0x00; 0x00;
   0xfe; 0x00; 0x00; 0x00; 0x00; 0x00; 0x00; 0x00].
(** koi8_r.h lines 27-52 *)
Definition koi8_r_2uni : list Z :=
  [0x2500; 0x2502; 0x250c; 0x2510; 0x2514; 0x2518; 0x251c; 0x2524; 0x252c; 0x2534; 0x253c; 0x2580; 0x2584; 0x2588; 0x258c; 0x2590;
   0x2591; 0x2592; 0x2593; 0x2320; 0x25a0; 0x2219; 0x221a; 0x2248; 0x2264; 0x2265; 0x00a0; 0x2321; 0x00b0; 0x00b2; 0x00b7; 0x00f7;
   0x2550; 0x2551; 0x2552; 0x0451; 0x2553; 0x2554; 0x2555; 0x2556; 0x2557; 0x2558; 0x2559; 0x255a; 0x255b; 0x255c; 0x255d; 0x255e;
   0x255f; 0x2560; 0x2561; 0x0401; 0x2562; 0x2563; 0x2564; 0x2565; 0x2566; 0x2567; 0x2568; 0x2569; 0x256a; 0x256b; 0x256c; 0x00a9;
   0x044e; 0x0430; 0x0431; 0x0446; 0x0434; 0x0435; 0x0444; 0x0433; 0x0445; 0x0438; 0x0439; 0x043a; 0x043b; 0x043c; 0x043d; 0x043e;
   0x043f; 0x044f; 0x0440; 0x0441; 0x0442; 0x0443; 0x0436; 0x0432; 0x044c; 0x044b; 0x0437; 0x0448; 0x044d; 0x0449; 0x0447; 0x044a;
   0x042e; 0x0410; 0x0411; 0x0426; 0x0414; 0x0415; 0x0424; 0x0413; 0x0425; 0x0418; 0x0419; 0x041a; 0x041b; 0x041c; 0x041d; 0x041e;
   0x041f; 0x042f; 0x0420; 0x0421; 0x0422; 0x0423; 0x0416; 0x0412; 0x042c; 0x042b; 0x0417; 0x0428; 0x042d; 0x0429; 0x0427; 0x042a].
(** koi8_r.h lines 65-77 *)
Definition koi8_r_page00 : list Z :=
  [0x9a; 0x00; 0x00; 0x00; 0x00; 0x00; 0x00; 0x00; 0x00; 0xbf; 0x00; 0x00; 0x00; 0x00; 0x00; 0x00;
   0x9c; 0x00; 0x9d; 0x00; 0x00; 0x00; 0x00; 0x9e; 0x00; 0x00; 0x00; 0x00; 0x00; 0x00; 0x00; 0x00;
   0x00; 0x00; 0x00; 0x00; 0x00; 0x00; 0x00; 0x00; 0x00; 0x00; 0x00; 0x00; 0x00; 0x00; 0x00; 0x00;
   0x00; 0x00; 0x00; 0x00; 0x00; 0x00; 0x00; 0x00; 0x00; 0x00; 0x00; 0x00; 0x00; 0x00; 0x00; 0x00;
   0x00; 0x00; 0x00; 0x00; 0x00; 0x00; 0x00; 0x00; 0x00; 0x00; 0x00; 0x00; 0x00; 0x00; 0x00; 0x00;
   0x00; 0x00; 0x00; 0x00; 0x00; 0x00; 0x00; 0x9f].
(** koi8_r.h lines 78-90 *)
Definition koi8_r_page04 : list Z :=
  [0x00; 0xb3; 0x00; 0x00; 0x00; 0x00; 0x00; 0x00; 0x00; 0x00; 0x00; 0x00; 0x00; 0x00; 0x00; 0x00;
   0xe1; 0xe2; 0xf7; 0xe7; 0xe4; 0xe5; 0xf6; 0xfa; 0xe9; 0xea; 0xeb; 0xec; 0xed; 0xee; 0xef; 0xf0;
   0xf2; 0xf3; 0xf4; 0xf5; 0xe6; 0xe8; 0xe3; 0xfe; 0xfb; 0xfd; 0xff; 0xf9; 0xf8; 0xfc; 0xe0; 0xf1;
   0xc1; 0xc2; 0xd7; 0xc7; 0xc4; 0xc5; 0xd6; 0xda; 0xc9; 0xca; 0xcb; 0xcc; 0xcd; 0xce; 0xcf; 0xd0;
   0xd2; 0xd3; 0xd4; 0xd5; 0xc6; 0xc8; 0xc3; 0xde; 0xdb; 0xdd; 0xdf; 0xd9; 0xd8; 0xdc; 0xc0; 0xd1;
   0x00; 0xa3; 0x00; 0x00; 0x00; 0x00; 0x00; 0x00].
(** koi8_r.h lines 91-102 *)
Definition koi8_r_page22 : list Z :=
  [0x00; 0x95; 0x96; 0x00; 0x00; 0x00; 0x00; 0x00; 0x00; 0x00; 0x00; 0x00; 0x00; 0x00; 0x00; 0x00;
   0x00; 0x00; 0x00; 0x00; 0x00; 0x00; 0x00; 0x00; 0x00; 0x00; 0x00; 0x00; 0x00; 0x00; 0x00; 0x00;
   0x00; 0x00; 0x00; 0x00; 0x00; 0x00; 0x00; 0x00; 0x00; 0x00; 0x00; 0x00; 0x00; 0x00; 0x00; 0x00;
   0x97; 0x00; 0x00; 0x00; 0x00; 0x00; 0x00; 0x00; 0x00; 0x00; 0x00; 0x00; 0x00; 0x00; 0x00; 0x00;
   0x00; 0x00; 0x00; 0x00; 0x00; 0x00; 0x00; 0x00; 0x00; 0x00; 0x00; 0x00; 0x98; 0x99; 0x00; 0x00].
(** koi8_r.h lines 103-105 *)
Definition koi8_r_page23 : list Z :=
  [0x93; 0x9b; 0x00; 0x00; 0x00; 0x00; 0x00; 0x00].
(** koi8_r.h lines 106-128 *)
Definition koi8_r_page25 : list Z :=
  [0x80; 0x00; 0x81; 0x00; 0x00; 0x00; 0x00; 0x00; 0x00; 0x00; 0x00; 0x00; 0x82; 0x00; 0x00; 0x00;
   0x83; 0x00; 0x00; 0x00; 0x84; 0x00; 0x00; 0x00; 0x85; 0x00; 0x00; 0x00; 0x86; 0x00; 0x00; 0x00;
   0x00; 0x00; 0x00; 0x00; 0x87; 0x00; 0x00; 0x00; 0x00; 0x00; 0x00; 0x00; 0x88; 0x00; 0x00; 0x00;
   0x00; 0x00; 0x00; 0x00; 0x89; 0x00; 0x00; 0x00; 0x00; 0x00; 0x00; 0x00; 0x8a; 0x00; 0x00; 0x00;
   0x00; 0x00; 0x00; 0x00; 0x00; 0x00; 0x00; 0x00; 0x00; 0x00; 0x00; 0x00; 0x00; 0x00; 0x00; 0x00;
   0xa0; 0xa1; 0xa2; 0xa4; 0xa5; 0xa6; 0xa7; 0xa8; 0xa9; 0xaa; 0xab; 0xac; 0xad; 0xae; 0xaf; 0xb0;
   0xb1; 0xb2; 0xb4; 0xb5; 0xb6; 0xb7; 0xb8; 0xb9; 0xba; 0xbb; 0xbc; 0xbd; 0xbe; 0x00; 0x00; 0x00;
   0x00; 0x00; 0x00; 0x00; 0x00; 0x00; 0x00; 0x00; 0x00; 0x00; 0x00; 0x00; 0x00; 0x00; 0x00; 0x00;
   0x8b; 0x00; 0x00; 0x00; 0x8c; 0x00; 0x00; 0x00; 0x8d; 0x00; 0x00; 0x00; 0x8e; 0x00; 0x00; 0x00;
   0x8f; 0x90; 0x91; 0x92; 0x00; 0x00; 0x00; 0x00; 0x00; 0x00; 0x00; 0x00; 0x00; 0x00; 0x00; 0x00;
   0x94; 0x00; 0x00; 0x00; 0x00; 0x00; 0x00; 0x00].
(** koi8_ru.h lines 25-50 *)
Definition koi8_ru_2uni : list Z :=
  [0x2500; 0x2502; 0x250c; 0x2510; 0x2514; 0x2518; 0x251c; 0x2524; 0x252c; 0x2534; 0x253c; 0x2580; 0x2584; 0x2588; 0x258c; 0x2590;
   0x2591; 0x2592; 0x2593; 0x2320; 0x25a0; 0x2219; 0x221a; 0x2248; 0x2264; 0x2265; 0x00a0; 0x2321; 0x00b0; 0x00b2; 0x00b7; 0x00f7;
   0x2550; 0x2551; 0x2552; 0x0451; 0x0454; 0x2554; 0x0456; 0x0457; 0x2557; 0x2558; 0x2559; 0x255a; 0x255b; 0x0491; 0x045e; 0x255e;
   0x255f; 0x2560; 0x2561; 0x0401; 0x0404; 0x2563; 0x0406; 0x0407; 0x2566; 0x2567; 0x2568; 0x2569; 0x256a; 0x0490; 0x040e; 0x00a9;
   0x044e; 0x0430; 0x0431; 0x0446; 0x0434; 0x0435; 0x0444; 0x0433; 0x0445; 0x0438; 0x0439; 0x043a; 0x043b; 0x043c; 0x043d; 0x043e;
   0x043f; 0x044f; 0x0440; 0x0441; 0x0442; 0x0443; 0x0436; 0x0432; 0x044c; 0x044b; 0x0437; 0x0448; 0x044d; 0x0449; 0x0447; 0x044a;
   0x042e; 0x0410; 0x0411; 0x0426; 0x0414; 0x0415; 0x0424; 0x0413; 0x0425; 0x0418; 0x0419; 0x041a; 0x041b; 0x041c; 0x041d; 0x041e;
   0x041f; 0x042f; 0x0420; 0x0421; 0x0422; 0x0423; 0x0416; 0x0412; 0x042c; 0x042b; 0x0417; 0x0428; 0x042d; 0x0429; 0x0427; 0x042a].
(** koi8_ru.h lines 63-75 *)
Definition koi8_ru_page00 : list Z :=
  [0x9a; 0x00; 0x00; 0x00; 0x00; 0x00; 0x00; 0x00; 0x00; 0xbf; 0x00; 0x00; 0x00; 0x00; 0x00; 0x00;
   0x9c; 0x00; 0x9d; 0x00; 0x00; 0x00; 0x00; 0x9e; 0x00; 0x00; 0x00; 0x00; 0x00; 0x00; 0x00; 0x00;
   0x00; 0x00; 0x00; 0x00; 0x00; 0x00; 0x00; 0x00; 0x00; 0x00; 0x00; 0x00; 0x00; 0x00; 0x00; 0x00;
   0x00; 0x00; 0x00; 0x00; 0x00; 0x00; 0x00; 0x00; 0x00; 0x00; 0x00; 0x00; 0x00; 0x00; 0x00; 0x00;
   0x00; 0x00; 0x00; 0x00; 0x00; 0x00; 0x00; 0x00; 0x00; 0x00; 0x00; 0x00; 0x00; 0x00; 0x00; 0x00;
   0x00; 0x00; 0x00; 0x00; 0x00; 0x00; 0x00; 0x9f].
(** koi8_ru.h lines 76-96 *)
Definition koi8_ru_page04 : list Z :=
  [0x00; 0xb3; 0x00; 0x00; 0xb4; 0x00; 0xb6; 0xb7; 0x00; 0x00; 0x00; 0x00; 0x00; 0x00; 0xbe; 0x00;
   0xe1; 0xe2; 0xf7; 0xe7; 0xe4; 0xe5; 0xf6; 0xfa; 0xe9; 0xea; 0xeb; 0xec; 0xed; 0xee; 0xef; 0xf0;
   0xf2; 0xf3; 0xf4; 0xf5; 0xe6; 0xe8; 0xe3; 0xfe; 0xfb; 0xfd; 0xff; 0xf9; 0xf8; 0xfc; 0xe0; 0xf1;
   0xc1; 0xc2; 0xd7; 0xc7; 0xc4; 0xc5; 0xd6; 0xda; 0xc9; 0xca; 0xcb; 0xcc; 0xcd; 0xce; 0xcf; 0xd0;
   0xd2; 0xd3; 0xd4; 0xd5; 0xc6; 0xc8; 0xc3; 0xde; 0xdb; 0xdd; 0xdf; 0xd9; 0xd8; 0xdc; 0xc0; 0xd1;
   0x00; 0xa3; 0x00; 0x00; 0xa4; 0x00; 0xa6; 0xa7; 0x00; 0x00; 0x00; 0x00; 0x00; 0x00; 0xae; 0x00;
   0x00; 0x00; 0x00; 0x00; 0x00; 0x00; 0x00; 0x00; 0x00; 0x00; 0x00; 0x00; 0x00; 0x00; 0x00; 0x00;
   0x00; 0x00; 0x00; 0x00; 0x00; 0x00; 0x00; 0x00; 0x00; 0x00; 0x00; 0x00; 0x00; 0x00; 0x00; 0x00;
   0x00; 0x00; 0x00; 0x00; 0x00; 0x00; 0x00; 0x00; 0x00; 0x00; 0x00; 0x00; 0x00; 0x00; 0x00; 0x00;
   0xbd; 0xad; 0x00; 0x00; 0x00; 0x00; 0x00; 0x00].
(** koi8_ru.h lines 97-108 *)
Definition koi8_ru_page22 : list Z :=
  [0x00; 0x95; 0x96; 0x00; 0x00; 0x00; 0x00; 0x00; 0x00; 0x00; 0x00; 0x00; 0x00; 0x00; 0x00; 0x00;
   0x00; 0x00; 0x00; 0x00; 0x00; 0x00; 0x00; 0x00; 0x00; 0x00; 0x00; 0x00; 0x00; 0x00; 0x00; 0x00;
   0x00; 0x00; 0x00; 0x00; 0x00; 0x00; 0x00; 0x00; 0x00; 0x00; 0x00; 0x00; 0x00; 0x00; 0x00; 0x00;
   0x97; 0x00; 0x00; 0x00; 0x00; 0x00; 0x00; 0x00; 0x00; 0x00; 0x00; 0x00; 0x00; 0x00; 0x00; 0x00;
   0x00; 0x00; 0x00; 0x00; 0x00; 0x00; 0x00; 0x00; 0x00; 0x00; 0x00; 0x00; 0x98; 0x99; 0x00; 0x00].
(** koi8_ru.h lines 109-111 *)
Definition koi8_ru_page23 : list Z :=
  [0x93; 0x9b; 0x00; 0x00; 0x00; 0x00; 0x00; 0x00].
(** koi8_ru.h lines 112-134 *)
Definition koi8_ru_page25 : list Z :=
  [0x80; 0x00; 0x81; 0x00; 0x00; 0x00; 0x00; 0x00; 0x00; 0x00; 0x00; 0x00; 0x82; 0x00; 0x00; 0x00;
   0x83; 0x00; 0x00; 0x00; 0x84; 0x00; 0x00; 0x00; 0x85; 0x00; 0x00; 0x00; 0x86; 0x00; 0x00; 0x00;
   0x00; 0x00; 0x00; 0x00; 0x87; 0x00; 0x00; 0x00; 0x00; 0x00; 0x00; 0x00; 0x88; 0x00; 0x00; 0x00;
   0x00; 0x00; 0x00; 0x00; 0x89; 0x00; 0x00; 0x00; 0x00; 0x00; 0x00; 0x00; 0x8a; 0x00; 0x00; 0x00;
   0x00; 0x00; 0x00; 0x00; 0x00; 0x00; 0x00; 0x00; 0x00; 0x00; 0x00; 0x00; 0x00; 0x00; 0x00; 0x00;
   0xa0; 0xa1; 0xa2; 0x00; 0xa5; 0x00; 0x00; 0xa8; 0xa9; 0xaa; 0xab; 0xac; 0x00; 0x00; 0xaf; 0xb0;
   0xb1; 0xb2; 0x00; 0xb5; 0x00; 0x00; 0xb8; 0xb9; 0xba; 0xbb; 0xbc; 0x00; 0x00; 0x00; 0x00; 0x00;
   0x00; 0x00; 0x00; 0x00; 0x00; 0x00; 0x00; 0x00; 0x00; 0x00; 0x00; 0x00; 0x00; 0x00; 0x00; 0x00;
   0x8b; 0x00; 0x00; 0x00; 0x8c; 0x00; 0x00; 0x00; 0x8d; 0x00; 0x00; 0x00; 0x8e; 0x00; 0x00; 0x00;
   0x8f; 0x90; 0x91; 0x92; 0x00; 0x00; 0x00; 0x00; 0x00; 0x00; 0x00; 0x00; 0x00; 0x00; 0x00; 0x00;
   0x94; 0x00; 0x00; 0x00; 0x00; 0x00; 0x00; 0x00].
(** koi8_u.h lines 27-52 *)
Definition koi8_u_2uni : list Z :=
  [0x2500; 0x2502; 0x250c; 0x2510; 0x2514; 0x2518; 0x251c; 0x2524; 0x252c; 0x2534; 0x253c; 0x2580; 0x2584; 0x2588; 0x258c; 0x2590;
   0x2591; 0x2592; 0x2593; 0x2320; 0x25a0; 0x2219; 0x221a; 0x2248; 0x2264; 0x2265; 0x00a0; 0x2321; 0x00b0; 0x00b2; 0x00b7; 0x00f7;
   0x2550; 0x2551; 0x2552; 0x0451; 0x0454; 0x2554; 0x0456; 0x0457; 0x2557; 0x2558; 0x2559; 0x255a; 0x255b; 0x0491; 0x255d; 0x255e;
   0x255f; 0x2560; 0x2561; 0x0401; 0x0404; 0x2563; 0x0406; 0x0407; 0x2566; 0x2567; 0x2568; 0x2569; 0x256a; 0x0490; 0x256c; 0x00a9;
   0x044e; 0x0430; 0x0431; 0x0446; 0x0434; 0x0435; 0x0444; 0x0433; 0x0445; 0x0438; 0x0439; 0x043a; 0x043b; 0x043c; 0x043d; 0x043e;
   0x043f; 0x044f; 0x0440; 0x0441; 0x0442; 0x0443; 0x0436; 0x0432; 0x044c; 0x044b; 0x0437; 0x0448; 0x044d; 0x0449; 0x0447; 0x044a;
   0x042e; 0x0410; 0x0411; 0x0426; 0x0414; 0x0415; 0x0424; 0x0413; 0x0425; 0x0418; 0x0419; 0x041a; 0x041b; 0x041c; 0x041d; 0x041e;
   0x041f; 0x042f; 0x0420; 0x0421; 0x0422; 0x0423; 0x0416; 0x0412; 0x042c; 0x042b; 0x0417; 0x0428; 0x042d; 0x0429; 0x0427; 0x042a].
(** koi8_u.h lines 65-77 *)
Definition koi8_u_page00 : list Z :=
  [0x9a; 0x00; 0x00; 0x00; 0x00; 0x00; 0x00; 0x00; 0x00; 0xbf; 0x00; 0x00; 0x00; 0x00; 0x00; 0x00;
   0x9c; 0x00; 0x9d; 0x00; 0x00; 0x00; 0x00; 0x9e; 0x00; 0x00; 0x00; 0x00; 0x00; 0x00; 0x00; 0x00;
   0x00; 0x00; 0x00; 0x00; 0x00; 0x00; 0x00; 0x00; 0x00; 0x00; 0x00; 0x00; 0x00; 0x00; 0x00; 0x00;
   0x00; 0x00; 0x00; 0x00; 0x00; 0x00; 0x00; 0x00; 0x00; 0x00; 0x00; 0x00; 0x00; 0x00; 0x00; 0x00;
   0x00; 0x00; 0x00; 0x00; 0x00; 0x00; 0x00; 0x00; 0x00; 0x00; 0x00; 0x00; 0x00; 0x00; 0x00; 0x00;
   0x00; 0x00; 0x00; 0x00; 0x00; 0x00; 0x00; 0x9f].
(** koi8_u.h lines 78-98 *)
Definition koi8_u_page04 : list Z :=
  [0x00; 0xb3; 0x00; 0x00; 0xb4; 0x00; 0xb6; 0xb7; 0x00; 0x00; 0x00; 0x00; 0x00; 0x00; 0x00; 0x00;
   0xe1; 0xe2; 0xf7; 0xe7; 0xe4; 0xe5; 0xf6; 0xfa; 0xe9; 0xea; 0xeb; 0xec; 0xed; 0xee; 0xef; 0xf0;
   0xf2; 0xf3; 0xf4; 0xf5; 0xe6; 0xe8; 0xe3; 0xfe; 0xfb; 0xfd; 0xff; 0xf9; 0xf8; 0xfc; 0xe0; 0xf1;
   0xc1; 0xc2; 0xd7; 0xc7; 0xc4; 0xc5; 0xd6; 0xda; 0xc9; 0xca; 0xcb; 0xcc; 0xcd; 0xce; 0xcf; 0xd0;
   0xd2; 0xd3; 0xd4; 0xd5; 0xc6; 0xc8; 0xc3; 0xde; 0xdb; 0xdd; 0xdf; 0xd9; 0xd8; 0xdc; 0xc0; 0xd1;
   0x00; 0xa3; 0x00; 0x00; 0xa4; 0x00; 0xa6; 0xa7; 0x00; 0x00; 0x00; 0x00; 0x00; 0x00; 0x00; 0x00;
   0x00; 0x00; 0x00; 0x00; 0x00; 0x00; 0x00; 0x00; 0x00; 0x00; 0x00; 0x00; 0x00; 0x00; 0x00; 0x00;
   0x00; 0x00; 0x00; 0x00; 0x00; 0x00; 0x00; 0x00; 0x00; 0x00; 0x00; 0x00; 0x00; 0x00; 0x00; 0x00;
   0x00; 0x00; 0x00; 0x00; 0x00; 0x00; 0x00; 0x00; 0x00; 0x00; 0x00; 0x00; 0x00; 0x00; 0x00; 0x00;
   0xbd; 0xad; 0x00; 0x00; 0x00; 0x00; 0x00; 0x00].
(** koi8_u.h lines 99-110 *)
Definition koi8_u_page22 : list Z :=
  [0x00; 0x95; 0x96; 0x00; 0x00; 0x00; 0x00; 0x00; 0x00; 0x00; 0x00; 0x00; 0x00; 0x00; 0x00; 0x00;
   0x00; 0x00; 0x00; 0x00; 0x00; 0x00; 0x00; 0x00; 0x00; 0x00; 0x00; 0x00; 0x00; 0x00; 0x00; 0x00;
   0x00; 0x00; 0x00; 0x00; 0x00; 0x00; 0x00; 0x00; 0x00; 0x00; 0x00; 0x00; 0x00; 0x00; 0x00; 0x00;
   0x97; 0x00; 0x00; 0x00; 0x00; 0x00; 0x00; 0x00; 0x00; 0x00; 0x00; 0x00; 0x00; 0x00; 0x00; 0x00;
   0x00; 0x00; 0x00; 0x00; 0x00; 0x00; 0x00; 0x00; 0x00; 0x00; 0x00; 0x00; 0x98; 0x99; 0x00; 0x00].
(** koi8_u.h lines 111-113 *)
Definition koi8_u_page23 : list Z :=
  [0x93; 0x9b; 0x00; 0x00; 0x00; 0x00; 0x00; 0x00].
(** koi8_u.h lines 114-136 *)
Definition koi8_u_page25 : list Z :=
  [0x80; 0x00; 0x81; 0x00; 0x00; 0x00; 0x00; 0x00; 0x00; 0x00; 0x00; 0x00; 0x82; 0x00; 0x00; 0x00;
   0x83; 0x00; 0x00; 0x00; 0x84; 0x00; 0x00; 0x00; 0x85; 0x00; 0x00; 0x00; 0x86; 0x00; 0x00; 0x00;
   0x00; 0x00; 0x00; 0x00; 0x87; 0x00; 0x00; 0x00; 0x00; 0x00; 0x00; 0x00; 0x88; 0x00; 0x00; 0x00;
   0x00; 0x00; 0x00; 0x00; 0x89; 0x00; 0x00; 0x00; 0x00; 0x00; 0x00; 0x00; 0x8a; 0x00; 0x00; 0x00;
   0x00; 0x00; 0x00; 0x00; 0x00; 0x00; 0x00; 0x00; 0x00; 0x00; 0x00; 0x00; 0x00; 0x00; 0x00; 0x00;
   0xa0; 0xa1; 0xa2; 0x00; 0xa5; 0x00; 0x00; 0xa8; 0xa9; 0xaa; 0xab; 0xac; 0x00; 0xae; 0xaf; 0xb0;
   0xb1; 0xb2; 0x00; 0xb5; 0x00; 0x00; 0xb8; 0xb9; 0xba; 0xbb; 0xbc; 0x00; 0xbe; 0x00; 0x00; 0x00;
   0x00; 0x00; 0x00; 0x00; 0x00; 0x00; 0x00; 0x00; 0x00; 0x00; 0x00; 0x00; 0x00; 0x00; 0x00; 0x00;
   0x8b; 0x00; 0x00; 0x00; 0x8c; 0x00; 0x00; 0x00; 0x8d; 0x00; 0x00; 0x00; 0x8e; 0x00; 0x00; 0x00;
   0x8f; 0x90; 0x91; 0x92; 0x00; 0x00; 0x00; 0x00; 0x00; 0x00; 0x00; 0x00; 0x00; 0x00; 0x00; 0x00;
   0x94; 0x00; 0x00; 0x00; 0x00; 0x00; 0x00; 0x00].
(** mac_cyrillic.h lines 25-50 *)
Definition mac_cyrillic_2uni : list Z :=
  [0x0410; 0x0411; 0x0412; 0x0413; 0x0414; 0x0415; 0x0416; 0x0417; 0x0418; 0x0419; 0x041a; 0x041b; 0x041c; 0x041d; 0x041e; 0x041f;
   0x0420; 0x0421; 0x0422; 0x0423; 0x0424; 0x0425; 0x0426; 0x0427; 0x0428; 0x0429; 0x042a; 0x042b; 0x042c; 0x042d; 0x042e; 0x042f;
   0x2020; 0x00b0; 0x00a2; 0x00a3; 0x00a7; 0x2022; 0x00b6; 0x0406; 0x00ae; 0x00a9; 0x2122; 0x0402; 0x0452; 0x2260; 0x0403; 0x0453;
   0x221e; 0x00b1; 0x2264; 0x2265; 0x0456; 0x00b5; 0x2202; 0x0408; 0x0404; 0x0454; 0x0407; 0x0457; 0x0409; 0x0459; 0x040a; 0x045a;
   0x0458; 0x0405; 0x00ac; 0x221a; 0x0192; 0x2248; 0x2206; 0x00ab; 0x00bb; 0x2026; 0x00a0; 0x040b; 0x045b; 0x040c; 0x045c; 0x0455;
   0x2013; 0x2014; 0x201c; 0x201d; 0x2018; 0x2019; 0x00f7; 0x201e; 0x040e; 0x045e; 0x040f; 0x045f; 0x2116; 0x0401; 0x0451; 0x044f;
   0x0430; 0x0431; 0x0432; 0x0433; 0x0434; 0x0435; 0x0436; 0x0437; 0x0438; 0x0439; 0x043a; 0x043b; 0x043c; 0x043d; 0x043e; 0x043f;
   0x0440; 0x0441; 0x0442; 0x0443; 0x0444; 0x0445; 0x0446; 0x0447; 0x0448; 0x0449; 0x044a; 0x044b; 0x044c; 0x044d; 0x044e; 0x00a4].
(** mac_cyrillic.h lines 63-68 *)
Definition mac_cyrillic_page00 : list Z :=
  [0xca; 0x00; 0xa2; 0xa3; 0xff; 0x00; 0x00; 0xa4; 0x00; 0xa9; 0x00; 0xc7; 0xc2; 0x00; 0xa8; 0x00;
   0xa1; 0xb1; 0x00; 0x00; 0x00; 0xb5; 0xa6; 0x00; 0x00; 0x00; 0x00; 0xc8; 0x00; 0x00; 0x00; 0x00].
(** mac_cyrillic.h lines 69-82 *)
Definition mac_cyrillic_page04 : list Z :=
  [0x00; 0xdd; 0xab; 0xae; 0xb8; 0xc1; 0xa7; 0xba; 0xb7; 0xbc; 0xbe; 0xcb; 0xcd; 0x00; 0xd8; 0xda;
   0x80; 0x81; 0x82; 0x83; 0x84; 0x85; 0x86; 0x87; 0x88; 0x89; 0x8a; 0x8b; 0x8c; 0x8d; 0x8e; 0x8f;
   0x90; 0x91; 0x92; 0x93; 0x94; 0x95; 0x96; 0x97; 0x98; 0x99; 0x9a; 0x9b; 0x9c; 0x9d; 0x9e; 0x9f;
   0xe0; 0xe1; 0xe2; 0xe3; 0xe4; 0xe5; 0xe6; 0xe7; 0xe8; 0xe9; 0xea; 0xeb; 0xec; 0xed; 0xee; 0xef;
   0xf0; 0xf1; 0xf2; 0xf3; 0xf4; 0xf5; 0xf6; 0xf7; 0xf8; 0xf9; 0xfa; 0xfb; 0xfc; 0xfd; 0xfe; 0xdf;
   0x00; 0xde; 0xac; 0xaf; 0xb9; 0xcf; 0xb4; 0xbb; 0xc0; 0xbd; 0xbf; 0xcc; 0xce; 0x00; 0xd9; 0xdb].
(** mac_cyrillic.h lines 83-87 *)
Definition mac_cyrillic_page20 : list Z :=
  [0x00; 0x00; 0x00; 0xd0; 0xd1; 0x00; 0x00; 0x00; 0xd4; 0xd5; 0x00; 0x00; 0xd2; 0xd3; 0xd7; 0x00;
   0xa0; 0x00; 0xa5; 0x00; 0x00; 0x00; 0xc9; 0x00].
(** mac_cyrillic.h lines 88-92 *)
Definition mac_cyrillic_page21 : list Z :=
  [0x00; 0x00; 0x00; 0x00; 0x00; 0x00; 0xdc; 0x00; 0x00; 0x00; 0x00; 0x00; 0x00; 0x00; 0x00; 0x00;
   0x00; 0x00; 0xaa; 0x00; 0x00; 0x00; 0x00; 0x00].
(** mac_cyrillic.h lines 93-107 *)
Definition mac_cyrillic_page22 : list Z :=
  [0x00; 0x00; 0xb6; 0x00; 0x00; 0x00; 0xc6; 0x00; 0x00; 0x00; 0x00; 0x00; 0x00; 0x00; 0x00; 0x00;
   0x00; 0x00; 0x00; 0x00; 0x00; 0x00; 0x00; 0x00; 0x00; 0x00; 0xc3; 0x00; 0x00; 0x00; 0xb0; 0x00;
   0x00; 0x00; 0x00; 0x00; 0x00; 0x00; 0x00; 0x00; 0x00; 0x00; 0x00; 0x00; 0x00; 0x00; 0x00; 0x00;
   0x00; 0x00; 0x00; 0x00; 0x00; 0x00; 0x00; 0x00; 0x00; 0x00; 0x00; 0x00; 0x00; 0x00; 0x00; 0x00;
   0x00; 0x00; 0x00; 0x00; 0x00; 0x00; 0x00; 0x00; 0xc5; 0x00; 0x00; 0x00; 0x00; 0x00; 0x00; 0x00;
   0x00; 0x00; 0x00; 0x00; 0x00; 0x00; 0x00; 0x00; 0x00; 0x00; 0x00; 0x00; 0x00; 0x00; 0x00; 0x00;
   0xad; 0x00; 0x00; 0x00; 0xb2; 0xb3; 0x00; 0x00].

(** ascii.h lines 25-34 and 36-44 *)
Definition ascii : charset :=
  {| cs_dec := [(0x80, DSame)];
     cs_direct := 0x0080;
     cs_enc := [] |}.

(** cp1250.h lines 52-68 and 116-139 *)
Definition cp1250 : charset :=
  {| cs_dec := [(0x80, DSame); (0x100, DTab true 0x80 cp1250_2uni)];
     cs_direct := 0x0080;
     cs_enc := [(0x00a0, 0x0180, EPage cp1250_page00); (0x02c0, 0x02e0, EPage cp1250_page02); (0x2010, 0x2040, EPage cp1250_page20); (0x20ac, 0x20ad, EConst 0x80); (0x2122, 0x2123, EConst 0x99)] |}.

(** cp1251.h lines 52-68 and 106-131 *)
Definition cp1251 : charset :=
  {| cs_dec := [(0x80, DSame); (0x100, DTab true 0x80 cp1251_2uni)];
     cs_direct := 0x0080;
     cs_enc := [(0x00a0, 0x00c0, EPage cp1251_page00); (0x0400, 0x0498, EPage cp1251_page04); (0x2010, 0x2040, EPage cp1251_page20); (0x20ac, 0x20ad, EConst 0x88); (0x2116, 0x2117, EConst 0xb9); (0x2122, 0x2123, EConst 0x99)] |}.

(** cp1252.h lines 34-50 and 78-103 *)
Definition cp1252 : charset :=
  {| cs_dec := [(0x80, DSame); (0xa0, DTab true 0x80 cp1252_2uni); (0x100, DSame)];
     cs_direct := 0x0080;
     cs_enc := [(0x00a0, 0x0100, ESame); (0x0150, 0x0198, EPage cp1252_page01); (0x02c0, 0x02e0, EPage cp1252_page02); (0x2010, 0x2040, EPage cp1252_page20); (0x20ac, 0x20ad, EConst 0x80); (0x2122, 0x2123, EConst 0x99)] |}.

(** cp1253.h lines 52-68 and 97-122 *)
Definition cp1253 : charset :=
  {| cs_dec := [(0x80, DSame); (0x100, DTab true 0x80 cp1253_2uni)];
     cs_direct := 0x0080;
     cs_enc := [(0x00a0, 0x00c0, EPage cp1253_page00); (0x0192, 0x193, EConst 0x83); (0x0380, 0x03d0, EPage cp1253_page03); (0x2010, 0x2040, EPage cp1253_page20); (0x20ac, 0x20ad, EConst 0x80); (0x2122, 0x2123, EConst 0x99)] |}.

(** cp1254.h lines 44-76 and 119-146 *)
Definition cp1254 : charset :=
  {| cs_dec := [(0x80, DSame); (0xa0, DTab true 0x80 cp1254_2uni_1); (0xd0, DSame); (0xe0, DTab false 0xd0 cp1254_2uni_2); (0xf0, DSame); (0x100, DTab false 0xf0 cp1254_2uni_3)];
     cs_direct := 0x0080;
     cs_enc := [(0x00a0, 0x00d0, ESame); (0x00d0, 0x0100, EPage cp1254_page00); (0x0118, 0x0198, EPage cp1254_page01); (0x02c0, 0x02e0, EPage cp1254_page02); (0x2010, 0x2040, EPage cp1254_page20); (0x20ac, 0x20ad, EConst 0x80); (0x2122, 0x2123, EConst 0x99)] |}.

(** cp1256.h lines 52-61 and 126-153 *)
Definition cp1256 : charset :=
  {| cs_dec := [(0x80, DSame); (0x100, DTab false 0x80 cp1256_2uni)];
     cs_direct := 0x0080;
     cs_enc := [(0x00a0, 0x0100, EPage cp1256_page00); (0x0150, 0x0198, EPage cp1256_page01); (0x02c6, 0x2c7, EConst 0x88); (0x0608, 0x06d8, EPage cp1256_page06); (0x2008, 0x2040, EPage cp1256_page20); (0x20ac, 0x20ad, EConst 0x80); (0x2122, 0x2123, EConst 0x99)] |}.

(** cp1257.h lines 52-68 and 116-139 *)
Definition cp1257 : charset :=
  {| cs_dec := [(0x80, DSame); (0x100, DTab true 0x80 cp1257_2uni)];
     cs_direct := 0x0080;
     cs_enc := [(0x00a0, 0x0180, EPage cp1257_page00); (0x02c0, 0x02e0, EPage cp1257_page02); (0x2010, 0x2040, EPage cp1257_page20); (0x20ac, 0x20ad, EConst 0x80); (0x2122, 0x2123, EConst 0x99)] |}.

(** iso8859_1.h lines 25-31 and 33-41 *)
Definition iso8859_1 : charset :=
  {| cs_dec := [(0x100, DSame)];
     cs_direct := 0x0100;
     cs_enc := [] |}.

(** iso8859_2.h lines 46-55 and 95-112 *)
Definition iso8859_2 : charset :=
  {| cs_dec := [(0xa0, DSame); (0x100, DTab false 0xa0 iso8859_2_2uni)];
     cs_direct := 0x00a0;
     cs_enc := [(0x00a0, 0x0180, EPage iso8859_2_page00); (0x02c0, 0x02e0, EPage iso8859_2_page02)] |}.

(** iso8859_3.h lines 46-62 and 99-118 *)
Definition iso8859_3 : charset :=
  {| cs_dec := [(0xa0, DSame); (0x100, DTab true 0xa0 iso8859_3_2uni)];
     cs_direct := 0x00a0;
     cs_enc := [(0x00a0, 0x0100, EPage iso8859_3_page00); (0x0108, 0x0180, EPage iso8859_3_page01); (0x02d8, 0x02e0, EPage iso8859_3_page02)] |}.

(** iso8859_4.h lines 46-55 and 95-112 *)
Definition iso8859_4 : charset :=
  {| cs_dec := [(0xa0, DSame); (0x100, DTab false 0xa0 iso8859_4_2uni)];
     cs_direct := 0x00a0;
     cs_enc := [(0x00a0, 0x0180, EPage iso8859_4_page00); (0x02c0, 0x02e0, EPage iso8859_4_page02)] |}.

(** iso8859_5.h lines 46-55 and 76-95 *)
Definition iso8859_5 : charset :=
  {| cs_dec := [(0xa0, DSame); (0x100, DTab false 0xa0 iso8859_5_2uni)];
     cs_direct := 0x00a0;
     cs_enc := [(0x00a0, 0x00b0, EPage iso8859_5_page00); (0x0400, 0x0460, EPage iso8859_5_page04); (0x2116, 0x2117, EConst 0xf0)] |}.

(** iso8859_6.h lines 46-62 and 81-98 *)
Definition iso8859_6 : charset :=
  {| cs_dec := [(0xa0, DSame); (0x100, DTab true 0xa0 iso8859_6_2uni)];
     cs_direct := 0x00a0;
     cs_enc := [(0x00a0, 0x00b0, EPage iso8859_6_page00); (0x0608, 0x0658, EPage iso8859_6_page06)] |}.

(** iso8859_7.h lines 46-62 and 88-111 *)
Definition iso8859_7 : charset :=
  {| cs_dec := [(0xa0, DSame); (0x100, DTab true 0xa0 iso8859_7_2uni)];
     cs_direct := 0x00a0;
     cs_enc := [(0x00a0, 0x00c0, EPage iso8859_7_page00); (0x0378, 0x03d0, EPage iso8859_7_page03); (0x2010, 0x2020, EPage iso8859_7_page20); (0x20ac, 0x20ad, EConst 0xa4); (0x20af, 0x20b0, EConst 0xa5)] |}.

(** iso8859_8.h lines 46-62 and 88-107 *)
Definition iso8859_8 : charset :=
  {| cs_dec := [(0xa0, DSame); (0x100, DTab true 0xa0 iso8859_8_2uni)];
     cs_direct := 0x00a0;
     cs_enc := [(0x00a0, 0x00f8, EPage iso8859_8_page00); (0x05d0, 0x05f0, EPage iso8859_8_page05); (0x2008, 0x2018, EPage iso8859_8_page20)] |}.

(** iso8859_9.h lines 37-46 and 68-85 *)
Definition iso8859_9 : charset :=
  {| cs_dec := [(0xd0, DSame); (0x100, DTab false 0xd0 iso8859_9_2uni)];
     cs_direct := 0x00d0;
     cs_enc := [(0x00d0, 0x0100, EPage iso8859_9_page00); (0x0118, 0x0160, EPage iso8859_9_page01)] |}.

(** iso8859_10.h lines 46-55 and 89-106 *)
Definition iso8859_10 : charset :=
  {| cs_dec := [(0xa0, DSame); (0x100, DTab false 0xa0 iso8859_10_2uni)];
     cs_direct := 0x00a0;
     cs_enc := [(0x00a0, 0x0180, EPage iso8859_10_page00); (0x2015, 0x2016, EConst 0xbd)] |}.

(** iso8859_11.h lines 25-38 and 40-52 *)
Definition iso8859_11 : charset :=
  {| cs_dec := [(0xa1, DSame); (0xdb, DAdd 0x0d60); (0xdf, DBad); (0xfc, DAdd 0x0d60)];
     cs_direct := 0x00a1;
     cs_enc := [(0x0e01, 0x0e3b, ESub 0x0d60); (0x0e3f, 0x0e5c, ESub 0x0d60)] |}.

(** iso8859_13.h lines 46-55 and 92-109 *)
Definition iso8859_13 : charset :=
  {| cs_dec := [(0xa0, DSame); (0x100, DTab false 0xa0 iso8859_13_2uni)];
     cs_direct := 0x00a0;
     cs_enc := [(0x00a0, 0x0180, EPage iso8859_13_page00); (0x2018, 0x2020, EPage iso8859_13_page20)] |}.

(** iso8859_14.h lines 46-55 and 104-127 *)
Definition iso8859_14 : charset :=
  {| cs_dec := [(0xa0, DSame); (0x100, DTab false 0xa0 iso8859_14_2uni)];
     cs_direct := 0x00a0;
     cs_enc := [(0x00a0, 0x0100, EPage iso8859_14_page00); (0x0108, 0x0128, EPage iso8859_14_page01_0); (0x0170, 0x0180, EPage iso8859_14_page01_1); (0x1e00, 0x1e88, EPage iso8859_14_page1e_0); (0x1ef0, 0x1ef8, EPage iso8859_14_page1e_1)] |}.

(** iso8859_15.h lines 34-43 and 60-81 *)
Definition iso8859_15 : charset :=
  {| cs_dec := [(0xa0, DSame); (0xc0, DTab false 0xa0 iso8859_15_2uni); (0x100, DSame)];
     cs_direct := 0x00a0;
     cs_enc := [(0x00a0, 0x00c0, EPage iso8859_15_page00); (0x00c0, 0x0100, ESame); (0x0150, 0x0180, EPage iso8859_15_page01); (0x20ac, 0x20ad, EConst 0xa4)] |}.

(** iso8859_16.h lines 46-55 and 95-116 *)
Definition iso8859_16 : charset :=
  {| cs_dec := [(0xa0, DSame); (0x100, DTab false 0xa0 iso8859_16_2uni)];
     cs_direct := 0x00a0;
     cs_enc := [(0x00a0, 0x0180, EPage iso8859_16_page00); (0x0218, 0x0220, EPage iso8859_16_page02); (0x2018, 0x2020, EPage iso8859_16_page20); (0x20ac, 0x20ad, EConst 0xa4)] |}.

(** cp866.h lines 43-54 and 102-125 *)
Definition cp866 : charset :=
  {| cs_dec := [(0x80, DSame); (0xb0, DAdd 0x0390); (0x100, DTab false 0xb0 cp866_2uni)];
     cs_direct := 0x0080;
     cs_enc := [(0x00a0, 0x00b8, EPage cp866_page00); (0x0400, 0x0460, EPage cp866_page04); (0x2116, 0x2117, EConst 0xfc); (0x2218, 0x2220, EPage cp866_page22); (0x2500, 0x25a8, EPage cp866_page25)] |}.

(** koi8_r.h lines 54-63 and 130-153 *)
Definition koi8_r : charset :=
  {| cs_dec := [(0x80, DSame); (0x100, DTab false 0x80 koi8_r_2uni)];
     cs_direct := 0x0080;
     cs_enc := [(0x00a0, 0x00f8, EPage koi8_r_page00); (0x0400, 0x0458, EPage koi8_r_page04); (0x2218, 0x2268, EPage koi8_r_page22); (0x2320, 0x2328, EPage koi8_r_page23); (0x2500, 0x25a8, EPage koi8_r_page25)] |}.

(** koi8_ru.h lines 52-61 and 136-159 *)
Definition koi8_ru : charset :=
  {| cs_dec := [(0x80, DSame); (0x100, DTab false 0x80 koi8_ru_2uni)];
     cs_direct := 0x0080;
     cs_enc := [(0x00a0, 0x00f8, EPage koi8_ru_page00); (0x0400, 0x0498, EPage koi8_ru_page04); (0x2218, 0x2268, EPage koi8_ru_page22); (0x2320, 0x2328, EPage koi8_ru_page23); (0x2500, 0x25a8, EPage koi8_ru_page25)] |}.

(** koi8_u.h lines 54-63 and 138-161 *)
Definition koi8_u : charset :=
  {| cs_dec := [(0x80, DSame); (0x100, DTab false 0x80 koi8_u_2uni)];
     cs_direct := 0x0080;
     cs_enc := [(0x00a0, 0x00f8, EPage koi8_u_page00); (0x0400, 0x0498, EPage koi8_u_page04); (0x2218, 0x2268, EPage koi8_u_page22); (0x2320, 0x2328, EPage koi8_u_page23); (0x2500, 0x25a8, EPage koi8_u_page25)] |}.

(** mac_cyrillic.h lines 52-61 and 109-136 *)
Definition mac_cyrillic : charset :=
  {| cs_dec := [(0x80, DSame); (0x100, DTab false 0x80 mac_cyrillic_2uni)];
     cs_direct := 0x0080;
     cs_enc := [(0x00a0, 0x00c0, EPage mac_cyrillic_page00); (0x00f7, 0xf8, EConst 0xd6); (0x0192, 0x193, EConst 0xc4); (0x0400, 0x0460, EPage mac_cyrillic_page04); (0x2010, 0x2028, EPage mac_cyrillic_page20); (0x2110, 0x2128, EPage mac_cyrillic_page21); (0x2200, 0x2268, EPage mac_cyrillic_page22)] |}.

(** tiniconv_desc.c lines 76-118: the place of each of these sets in tiniconv_charset_map. *)
Definition one_byte_sets : list (Z * charset) :=
  [(0, ascii); (1, cp1250); (2, cp1251); (3, cp1252); (4, cp1253); (5, cp1254); (7, cp1256); (8, cp1257); (14, iso8859_1); (15, iso8859_2); (16, iso8859_3); (17, iso8859_4); (18, iso8859_5); (19, iso8859_6); (20, iso8859_7); (21, iso8859_8); (22, iso8859_9); (23, iso8859_10); (24, iso8859_11); (25, iso8859_13); (26, iso8859_14); (27, iso8859_15); (28, iso8859_16); (29, cp866); (30, koi8_r); (31, koi8_ru); (32, koi8_u); (33, mac_cyrillic)].
