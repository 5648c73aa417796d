(** Tables: the constant tables of the crate.
    Generated by tools/gen_tables.py from the text of /repo; each entry is one
    [match] arm, in source order. *)
From Coq Require Import String.
From Verif Require Import Base.
Local Open Scope string_scope.

(** the arms of [get_standard_string] (src/compact1/index/strings.rs:25-420). *)
Definition standard_strings : list (Z * string) :=
  [
   (0, ".notdef"); (1, "space"); (2, "exclam"); (3, "quotedbl");
   (4, "numbersign"); (5, "dollar"); (6, "percent"); (7, "ampersand");
   (8, "quoteright"); (9, "parenleft"); (10, "parenright"); (11, "asterisk");
   (12, "plus"); (13, "comma"); (14, "hyphen"); (15, "period");
   (16, "slash"); (17, "zero"); (18, "one"); (19, "two");
   (20, "three"); (21, "four"); (22, "five"); (23, "six");
   (24, "seven"); (25, "eight"); (26, "nine"); (27, "colon");
   (28, "semicolon"); (29, "less"); (30, "equal"); (31, "greater");
   (32, "question"); (33, "at"); (34, "A"); (35, "B");
   (36, "C"); (37, "D"); (38, "E"); (39, "F");
   (40, "G"); (41, "H"); (42, "I"); (43, "J");
   (44, "K"); (45, "L"); (46, "M"); (47, "N");
   (48, "O"); (49, "P"); (50, "Q"); (51, "R");
   (52, "S"); (53, "T"); (54, "U"); (55, "V");
   (56, "W"); (57, "X"); (58, "Y"); (59, "Z");
   (60, "bracketleft"); (61, "backslash"); (62, "bracketright"); (63, "asciicircum");
   (64, "underscore"); (65, "quoteleft"); (66, "a"); (67, "b");
   (68, "c"); (69, "d"); (70, "e"); (71, "f");
   (72, "g"); (73, "h"); (74, "i"); (75, "j");
   (76, "k"); (77, "l"); (78, "m"); (79, "n");
   (80, "o"); (81, "p"); (82, "q"); (83, "r");
   (84, "s"); (85, "t"); (86, "u"); (87, "v");
   (88, "w"); (89, "x"); (90, "y"); (91, "z");
   (92, "braceleft"); (93, "bar"); (94, "braceright"); (95, "asciitilde");
   (96, "exclamdown"); (97, "cent"); (98, "sterling"); (99, "fraction");
   (100, "yen"); (101, "florin"); (102, "section"); (103, "currency");
   (104, "quotesingle"); (105, "quotedblleft"); (106, "guillemotleft"); (107, "guilsinglleft");
   (108, "guilsinglright"); (109, "fi"); (110, "fl"); (111, "endash");
   (112, "dagger"); (113, "daggerdbl"); (114, "periodcentered"); (115, "paragraph");
   (116, "bullet"); (117, "quotesinglbase"); (118, "quotedblbase"); (119, "quotedblright");
   (120, "guillemotright"); (121, "ellipsis"); (122, "perthousand"); (123, "questiondown");
   (124, "grave"); (125, "acute"); (126, "circumflex"); (127, "tilde");
   (128, "macron"); (129, "breve"); (130, "dotaccent"); (131, "dieresis");
   (132, "ring"); (133, "cedilla"); (134, "hungarumlaut"); (135, "ogonek");
   (136, "caron"); (137, "emdash"); (138, "AE"); (139, "ordfeminine");
   (140, "Lslash"); (141, "Oslash"); (142, "OE"); (143, "ordmasculine");
   (144, "ae"); (145, "dotlessi"); (146, "lslash"); (147, "oslash");
   (148, "oe"); (149, "germandbls"); (150, "onesuperior"); (151, "logicalnot");
   (152, "mu"); (153, "trademark"); (154, "Eth"); (155, "onehalf");
   (156, "plusminus"); (157, "Thorn"); (158, "onequarter"); (159, "divide");
   (160, "brokenbar"); (161, "degree"); (162, "thorn"); (163, "threequarters");
   (164, "twosuperior"); (165, "registered"); (166, "minus"); (167, "eth");
   (168, "multiply"); (169, "threesuperior"); (170, "copyright"); (171, "Aacute");
   (172, "Acircumflex"); (173, "Adieresis"); (174, "Agrave"); (175, "Aring");
   (176, "Atilde"); (177, "Ccedilla"); (178, "Eacute"); (179, "Ecircumflex");
   (180, "Edieresis"); (181, "Egrave"); (182, "Iacute"); (183, "Icircumflex");
   (184, "Idieresis"); (185, "Igrave"); (186, "Ntilde"); (187, "Oacute");
   (188, "Ocircumflex"); (189, "Odieresis"); (190, "Ograve"); (191, "Otilde");
   (192, "Scaron"); (193, "Uacute"); (194, "Ucircumflex"); (195, "Udieresis");
   (196, "Ugrave"); (197, "Yacute"); (198, "Ydieresis"); (199, "Zcaron");
   (200, "aacute"); (201, "acircumflex"); (202, "adieresis"); (203, "agrave");
   (204, "aring"); (205, "atilde"); (206, "ccedilla"); (207, "eacute");
   (208, "ecircumflex"); (209, "edieresis"); (210, "egrave"); (211, "iacute");
   (212, "icircumflex"); (213, "idieresis"); (214, "igrave"); (215, "ntilde");
   (216, "oacute"); (217, "ocircumflex"); (218, "odieresis"); (219, "ograve");
   (220, "otilde"); (221, "scaron"); (222, "uacute"); (223, "ucircumflex");
   (224, "udieresis"); (225, "ugrave"); (226, "yacute"); (227, "ydieresis");
   (228, "zcaron"); (229, "exclamsmall"); (230, "Hungarumlautsmall"); (231, "dollaroldstyle");
   (232, "dollarsuperior"); (233, "ampersandsmall"); (234, "Acutesmall"); (235, "parenleftsuperior");
   (236, "parenrightsuperior"); (237, "twodotenleader"); (238, "onedotenleader"); (239, "zerooldstyle");
   (240, "oneoldstyle"); (241, "twooldstyle"); (242, "threeoldstyle"); (243, "fouroldstyle");
   (244, "fiveoldstyle"); (245, "sixoldstyle"); (246, "sevenoldstyle"); (247, "eightoldstyle");
   (248, "nineoldstyle"); (249, "commasuperior"); (250, "threequartersemdash"); (251, "periodsuperior");
   (252, "questionsmall"); (253, "asuperior"); (254, "bsuperior"); (255, "centsuperior");
   (256, "dsuperior"); (257, "esuperior"); (258, "isuperior"); (259, "lsuperior");
   (260, "msuperior"); (261, "nsuperior"); (262, "osuperior"); (263, "rsuperior");
   (264, "ssuperior"); (265, "tsuperior"); (266, "ff"); (267, "ffi");
   (268, "ffl"); (269, "parenleftinferior"); (270, "parenrightinferior"); (271, "Circumflexsmall");
   (272, "hyphensuperior"); (273, "Gravesmall"); (274, "Asmall"); (275, "Bsmall");
   (276, "Csmall"); (277, "Dsmall"); (278, "Esmall"); (279, "Fsmall");
   (280, "Gsmall"); (281, "Hsmall"); (282, "Ismall"); (283, "Jsmall");
   (284, "Ksmall"); (285, "Lsmall"); (286, "Msmall"); (287, "Nsmall");
   (288, "Osmall"); (289, "Psmall"); (290, "Qsmall"); (291, "Rsmall");
   (292, "Ssmall"); (293, "Tsmall"); (294, "Usmall"); (295, "Vsmall");
   (296, "Wsmall"); (297, "Xsmall"); (298, "Ysmall"); (299, "Zsmall");
   (300, "colonmonetary"); (301, "onefitted"); (302, "rupiah"); (303, "Tildesmall");
   (304, "exclamdownsmall"); (305, "centoldstyle"); (306, "Lslashsmall"); (307, "Scaronsmall");
   (308, "Zcaronsmall"); (309, "Dieresissmall"); (310, "Brevesmall"); (311, "Caronsmall");
   (312, "Dotaccentsmall"); (313, "Macronsmall"); (314, "figuredash"); (315, "hypheninferior");
   (316, "Ogoneksmall"); (317, "Ringsmall"); (318, "Cedillasmall"); (319, "questiondownsmall");
   (320, "oneeighth"); (321, "threeeighths"); (322, "fiveeighths"); (323, "seveneighths");
   (324, "onethird"); (325, "twothirds"); (326, "zerosuperior"); (327, "foursuperior");
   (328, "fivesuperior"); (329, "sixsuperior"); (330, "sevensuperior"); (331, "eightsuperior");
   (332, "ninesuperior"); (333, "zeroinferior"); (334, "oneinferior"); (335, "twoinferior");
   (336, "threeinferior"); (337, "fourinferior"); (338, "fiveinferior"); (339, "sixinferior");
   (340, "seveninferior"); (341, "eightinferior"); (342, "nineinferior"); (343, "centinferior");
   (344, "dollarinferior"); (345, "periodinferior"); (346, "commainferior"); (347, "Agravesmall");
   (348, "Aacutesmall"); (349, "Acircumflexsmall"); (350, "Atildesmall"); (351, "Adieresissmall");
   (352, "Aringsmall"); (353, "AEsmall"); (354, "Ccedillasmall"); (355, "Egravesmall");
   (356, "Eacutesmall"); (357, "Ecircumflexsmall"); (358, "Edieresissmall"); (359, "Igravesmall");
   (360, "Iacutesmall"); (361, "Icircumflexsmall"); (362, "Idieresissmall"); (363, "Ethsmall");
   (364, "Ntildesmall"); (365, "Ogravesmall"); (366, "Oacutesmall"); (367, "Ocircumflexsmall");
   (368, "Otildesmall"); (369, "Odieresissmall"); (370, "OEsmall"); (371, "Oslashsmall");
   (372, "Ugravesmall"); (373, "Uacutesmall"); (374, "Ucircumflexsmall"); (375, "Udieresissmall");
   (376, "Yacutesmall"); (377, "Thornsmall"); (378, "Ydieresissmall"); (379, "001.000");
   (380, "001.001"); (381, "001.002"); (382, "001.003"); (383, "Black");
   (384, "Bold"); (385, "Book"); (386, "Light"); (387, "Medium");
   (388, "Regular"); (389, "Roman"); (390, "Semibold")
  ].

(** the arms (glyph identifier and string identifier) of [get_standard] (src/compact1/encoding.rs:124-383). *)
Definition standard_encoding : list (Z * Z) :=
  [
   (0, 0); (1, 0); (2, 0); (3, 0);
   (4, 0); (5, 0); (6, 0); (7, 0);
   (8, 0); (9, 0); (10, 0); (11, 0);
   (12, 0); (13, 0); (14, 0); (15, 0);
   (16, 0); (17, 0); (18, 0); (19, 0);
   (20, 0); (21, 0); (22, 0); (23, 0);
   (24, 0); (25, 0); (26, 0); (27, 0);
   (28, 0); (29, 0); (30, 0); (31, 0);
   (32, 1); (33, 2); (34, 3); (35, 4);
   (36, 5); (37, 6); (38, 7); (39, 8);
   (40, 9); (41, 10); (42, 11); (43, 12);
   (44, 13); (45, 14); (46, 15); (47, 16);
   (48, 17); (49, 18); (50, 19); (51, 20);
   (52, 21); (53, 22); (54, 23); (55, 24);
   (56, 25); (57, 26); (58, 27); (59, 28);
   (60, 29); (61, 30); (62, 31); (63, 32);
   (64, 33); (65, 34); (66, 35); (67, 36);
   (68, 37); (69, 38); (70, 39); (71, 40);
   (72, 41); (73, 42); (74, 43); (75, 44);
   (76, 45); (77, 46); (78, 47); (79, 48);
   (80, 49); (81, 50); (82, 51); (83, 52);
   (84, 53); (85, 54); (86, 55); (87, 56);
   (88, 57); (89, 58); (90, 59); (91, 60);
   (92, 61); (93, 62); (94, 63); (95, 64);
   (96, 65); (97, 66); (98, 67); (99, 68);
   (100, 69); (101, 70); (102, 71); (103, 72);
   (104, 73); (105, 74); (106, 75); (107, 76);
   (108, 77); (109, 78); (110, 79); (111, 80);
   (112, 81); (113, 82); (114, 83); (115, 84);
   (116, 85); (117, 86); (118, 87); (119, 88);
   (120, 89); (121, 90); (122, 91); (123, 92);
   (124, 93); (125, 94); (126, 95); (127, 0);
   (128, 0); (129, 0); (130, 0); (131, 0);
   (132, 0); (133, 0); (134, 0); (135, 0);
   (136, 0); (137, 0); (138, 0); (139, 0);
   (140, 0); (141, 0); (142, 0); (143, 0);
   (144, 0); (145, 0); (146, 0); (147, 0);
   (148, 0); (149, 0); (150, 0); (151, 0);
   (152, 0); (153, 0); (154, 0); (155, 0);
   (156, 0); (157, 0); (158, 0); (159, 0);
   (160, 0); (161, 96); (162, 97); (163, 98);
   (164, 99); (165, 100); (166, 101); (167, 102);
   (168, 103); (169, 104); (170, 105); (171, 106);
   (172, 107); (173, 108); (174, 109); (175, 110);
   (176, 0); (177, 111); (178, 112); (179, 113);
   (180, 114); (181, 0); (182, 115); (183, 116);
   (184, 117); (185, 118); (186, 119); (187, 120);
   (188, 121); (189, 122); (190, 0); (191, 123);
   (192, 0); (193, 124); (194, 125); (195, 126);
   (196, 127); (197, 128); (198, 129); (199, 130);
   (200, 131); (201, 0); (202, 132); (203, 133);
   (204, 0); (205, 134); (206, 135); (207, 136);
   (208, 137); (209, 0); (210, 0); (211, 0);
   (212, 0); (213, 0); (214, 0); (215, 0);
   (216, 0); (217, 0); (218, 0); (219, 0);
   (220, 0); (221, 0); (222, 0); (223, 0);
   (224, 0); (225, 138); (226, 0); (227, 139);
   (228, 0); (229, 0); (230, 0); (231, 0);
   (232, 140); (233, 141); (234, 142); (235, 143);
   (236, 0); (237, 0); (238, 0); (239, 0);
   (240, 0); (241, 144); (242, 0); (243, 0);
   (244, 0); (245, 145); (246, 0); (247, 0);
   (248, 146); (249, 147); (250, 148); (251, 149);
   (252, 0); (253, 0); (254, 0); (255, 0)
  ].

(** the names written beside the arms (documentation, unused by the code) of [get_standard] (src/compact1/encoding.rs:124-383). *)
Definition standard_encoding_labels : list (Z * string) :=
  [
   (0, ".notdef"); (1, ".notdef"); (2, ".notdef"); (3, ".notdef");
   (4, ".notdef"); (5, ".notdef"); (6, ".notdef"); (7, ".notdef");
   (8, ".notdef"); (9, ".notdef"); (10, ".notdef"); (11, ".notdef");
   (12, ".notdef"); (13, ".notdef"); (14, ".notdef"); (15, ".notdef");
   (16, ".notdef"); (17, ".notdef"); (18, ".notdef"); (19, ".notdef");
   (20, ".notdef"); (21, ".notdef"); (22, ".notdef"); (23, ".notdef");
   (24, ".notdef"); (25, ".notdef"); (26, ".notdef"); (27, ".notdef");
   (28, ".notdef"); (29, ".notdef"); (30, ".notdef"); (31, ".notdef");
   (32, "space"); (33, "exclam"); (34, "quotedbl"); (35, "numbersign");
   (36, "dollar"); (37, "percent"); (38, "ampersand"); (39, "quoteright");
   (40, "parenleft"); (41, "parenright"); (42, "asterisk"); (43, "plus");
   (44, "comma"); (45, "hyphen"); (46, "period"); (47, "slash");
   (48, "zero"); (49, "one"); (50, "two"); (51, "three");
   (52, "four"); (53, "five"); (54, "six"); (55, "seven");
   (56, "eight"); (57, "nine"); (58, "colon"); (59, "semicolon");
   (60, "less"); (61, "equal"); (62, "greater"); (63, "question");
   (64, "at"); (65, "A"); (66, "B"); (67, "C");
   (68, "D"); (69, "E"); (70, "F"); (71, "G");
   (72, "H"); (73, "I"); (74, "J"); (75, "K");
   (76, "L"); (77, "M"); (78, "N"); (79, "O");
   (80, "P"); (81, "Q"); (82, "R"); (83, "S");
   (84, "T"); (85, "U"); (86, "V"); (87, "W");
   (88, "X"); (89, "Y"); (90, "Z"); (91, "bracketleft");
   (92, "backslash"); (93, "bracketright"); (94, "asciicircum"); (95, "underscore");
   (96, "quoteleft"); (97, "a"); (98, "b"); (99, "c");
   (100, "d"); (101, "e"); (102, "f"); (103, "g");
   (104, "h"); (105, "i"); (106, "j"); (107, "k");
   (108, "l"); (109, "m"); (110, "n"); (111, "o");
   (112, "p"); (113, "q"); (114, "r"); (115, "s");
   (116, "t"); (117, "u"); (118, "v"); (119, "w");
   (120, "x"); (121, "y"); (122, "z"); (123, "braceleft");
   (124, "bar"); (125, "braceright"); (126, "asciitilde"); (127, ".notdef");
   (128, ".notdef"); (129, ".notdef"); (130, ".notdef"); (131, ".notdef");
   (132, ".notdef"); (133, ".notdef"); (134, ".notdef"); (135, ".notdef");
   (136, ".notdef"); (137, ".notdef"); (138, ".notdef"); (139, ".notdef");
   (140, ".notdef"); (141, ".notdef"); (142, ".notdef"); (143, ".notdef");
   (144, ".notdef"); (145, ".notdef"); (146, ".notdef"); (147, ".notdef");
   (148, ".notdef"); (149, ".notdef"); (150, ".notdef"); (151, ".notdef");
   (152, ".notdef"); (153, ".notdef"); (154, ".notdef"); (155, ".notdef");
   (156, ".notdef"); (157, ".notdef"); (158, ".notdef"); (159, ".notdef");
   (160, ".notdef"); (161, "exclamdown"); (162, "cent"); (163, "sterling");
   (164, "fraction"); (165, "yen"); (166, "florin"); (167, "section");
   (168, "currency"); (169, "quotesingle"); (170, "quotedblleft"); (171, "guillemotleft");
   (172, "guilsinglleft"); (173, "guilsinglright"); (174, "fi"); (175, "fl");
   (176, ".notdef"); (177, "endash"); (178, "dagger"); (179, "daggerdbl");
   (180, "periodcentered"); (181, ".notdef"); (182, "paragraph"); (183, "bullet");
   (184, "quotesinglbase"); (185, "quotedblbase"); (186, "quotedblright"); (187, "guillemotright");
   (188, "ellipsis"); (189, "perthousand"); (190, ".notdef"); (191, "questiondown");
   (192, ".notdef"); (193, "grave"); (194, "acute"); (195, "circumflex");
   (196, "tilde"); (197, "macron"); (198, "breve"); (199, "dotaccent");
   (200, "dieresis"); (201, ".notdef"); (202, "ring"); (203, "cedilla");
   (204, ".notdef"); (205, "hungarumlaut"); (206, "ogonek"); (207, "caron");
   (208, "emdash"); (209, ".notdef"); (210, ".notdef"); (211, ".notdef");
   (212, ".notdef"); (213, ".notdef"); (214, ".notdef"); (215, ".notdef");
   (216, ".notdef"); (217, ".notdef"); (218, ".notdef"); (219, ".notdef");
   (220, ".notdef"); (221, ".notdef"); (222, ".notdef"); (223, ".notdef");
   (224, ".notdef"); (225, "AE"); (226, ".notdef"); (227, "ordfeminine");
   (228, ".notdef"); (229, ".notdef"); (230, ".notdef"); (231, ".notdef");
   (232, "Lslash"); (233, "Oslash"); (234, "OE"); (235, "ordmasculine");
   (236, ".notdef"); (237, ".notdef"); (238, ".notdef"); (239, ".notdef");
   (240, ".notdef"); (241, "ae"); (242, ".notdef"); (243, ".notdef");
   (244, ".notdef"); (245, "dotlessi"); (246, ".notdef"); (247, ".notdef");
   (248, "lslash"); (249, "oslash"); (250, "oe"); (251, "germandbls");
   (252, ".notdef"); (253, ".notdef"); (254, ".notdef"); (255, ".notdef")
  ].

(** the arms (glyph identifier and string identifier) of [get_expert] (src/compact1/encoding.rs:385-644). *)
Definition expert_encoding : list (Z * Z) :=
  [
   (0, 0); (1, 0); (2, 0); (3, 0);
   (4, 0); (5, 0); (6, 0); (7, 0);
   (8, 0); (9, 0); (10, 0); (11, 0);
   (12, 0); (13, 0); (14, 0); (15, 0);
   (16, 0); (17, 0); (18, 0); (19, 0);
   (20, 0); (21, 0); (22, 0); (23, 0);
   (24, 0); (25, 0); (26, 0); (27, 0);
   (28, 0); (29, 0); (30, 0); (31, 0);
   (32, 1); (33, 229); (34, 230); (35, 0);
   (36, 231); (37, 232); (38, 233); (39, 234);
   (40, 235); (41, 236); (42, 237); (43, 238);
   (44, 13); (45, 14); (46, 15); (47, 99);
   (48, 239); (49, 240); (50, 241); (51, 242);
   (52, 243); (53, 244); (54, 245); (55, 246);
   (56, 247); (57, 248); (58, 27); (59, 28);
   (60, 249); (61, 250); (62, 251); (63, 252);
   (64, 0); (65, 253); (66, 254); (67, 255);
   (68, 256); (69, 257); (70, 0); (71, 0);
   (72, 0); (73, 258); (74, 0); (75, 0);
   (76, 259); (77, 260); (78, 261); (79, 262);
   (80, 0); (81, 0); (82, 263); (83, 264);
   (84, 265); (85, 0); (86, 266); (87, 109);
   (88, 110); (89, 267); (90, 268); (91, 269);
   (92, 0); (93, 270); (94, 271); (95, 272);
   (96, 273); (97, 274); (98, 275); (99, 276);
   (100, 277); (101, 278); (102, 279); (103, 280);
   (104, 281); (105, 282); (106, 283); (107, 284);
   (108, 285); (109, 286); (110, 287); (111, 288);
   (112, 289); (113, 290); (114, 291); (115, 292);
   (116, 293); (117, 294); (118, 295); (119, 296);
   (120, 297); (121, 298); (122, 299); (123, 300);
   (124, 301); (125, 302); (126, 303); (127, 0);
   (128, 0); (129, 0); (130, 0); (131, 0);
   (132, 0); (133, 0); (134, 0); (135, 0);
   (136, 0); (137, 0); (138, 0); (139, 0);
   (140, 0); (141, 0); (142, 0); (143, 0);
   (144, 0); (145, 0); (146, 0); (147, 0);
   (148, 0); (149, 0); (150, 0); (151, 0);
   (152, 0); (153, 0); (154, 0); (155, 0);
   (156, 0); (157, 0); (158, 0); (159, 0);
   (160, 0); (161, 304); (162, 305); (163, 306);
   (164, 0); (165, 0); (166, 307); (167, 308);
   (168, 309); (169, 310); (170, 311); (171, 0);
   (172, 312); (173, 0); (174, 0); (175, 313);
   (176, 0); (177, 0); (178, 314); (179, 315);
   (180, 0); (181, 0); (182, 316); (183, 317);
   (184, 318); (185, 0); (186, 0); (187, 0);
   (188, 158); (189, 155); (190, 163); (191, 319);
   (192, 320); (193, 321); (194, 322); (195, 323);
   (196, 324); (197, 325); (198, 0); (199, 0);
   (200, 326); (201, 150); (202, 164); (203, 169);
   (204, 327); (205, 328); (206, 329); (207, 330);
   (208, 331); (209, 332); (210, 333); (211, 334);
   (212, 335); (213, 336); (214, 337); (215, 338);
   (216, 339); (217, 340); (218, 341); (219, 342);
   (220, 343); (221, 344); (222, 345); (223, 346);
   (224, 347); (225, 348); (226, 349); (227, 350);
   (228, 351); (229, 352); (230, 353); (231, 354);
   (232, 355); (233, 356); (234, 357); (235, 358);
   (236, 359); (237, 360); (238, 361); (239, 362);
   (240, 363); (241, 364); (242, 365); (243, 366);
   (244, 367); (245, 368); (246, 369); (247, 370);
   (248, 371); (249, 372); (250, 373); (251, 374);
   (252, 375); (253, 376); (254, 377); (255, 378)
  ].

(** the names written beside the arms (documentation, unused by the code) of [get_expert] (src/compact1/encoding.rs:385-644). *)
Definition expert_encoding_labels : list (Z * string) :=
  [
   (0, ".notdef"); (1, ".notdef"); (2, ".notdef"); (3, ".notdef");
   (4, ".notdef"); (5, ".notdef"); (6, ".notdef"); (7, ".notdef");
   (8, ".notdef"); (9, ".notdef"); (10, ".notdef"); (11, ".notdef");
   (12, ".notdef"); (13, ".notdef"); (14, ".notdef"); (15, ".notdef");
   (16, ".notdef"); (17, ".notdef"); (18, ".notdef"); (19, ".notdef");
   (20, ".notdef"); (21, ".notdef"); (22, ".notdef"); (23, ".notdef");
   (24, ".notdef"); (25, ".notdef"); (26, ".notdef"); (27, ".notdef");
   (28, ".notdef"); (29, ".notdef"); (30, ".notdef"); (31, ".notdef");
   (32, "space"); (33, "exclamsmall"); (34, "Hungarumlautsmall"); (35, ".notdef");
   (36, "dollaroldstyle"); (37, "dollarsuperior"); (38, "ampersandsmall"); (39, "Acutesmall");
   (40, "parenleftsuperior"); (41, "parenrightsuperior"); (42, "twodotenleader"); (43, "onedotenleader");
   (44, "comma"); (45, "hyphen"); (46, "period"); (47, "fraction");
   (48, "zerooldstyle"); (49, "oneoldstyle"); (50, "twooldstyle"); (51, "threeoldstyle");
   (52, "fouroldstyle"); (53, "fiveoldstyle"); (54, "sixoldstyle"); (55, "sevenoldstyle");
   (56, "eightoldstyle"); (57, "nineoldstyle"); (58, "colon"); (59, "semicolon");
   (60, "commasuperior"); (61, "threequartersemdash"); (62, "periodsuperior"); (63, "questionsmall");
   (64, ".notdef"); (65, "asuperior"); (66, "bsuperior"); (67, "centsuperior");
   (68, "dsuperior"); (69, "esuperior"); (70, ".notdef"); (71, ".notdef");
   (72, ".notdef"); (73, "isuperior"); (74, ".notdef"); (75, ".notdef");
   (76, "lsuperior"); (77, "msuperior"); (78, "nsuperior"); (79, "osuperior");
   (80, ".notdef"); (81, ".notdef"); (82, "rsuperior"); (83, "ssuperior");
   (84, "tsuperior"); (85, ".notdef"); (86, "ff"); (87, "fi");
   (88, "fl"); (89, "ffi"); (90, "ffl"); (91, "parenleftinferior");
   (92, ".notdef"); (93, "parenrightinferior"); (94, "Circumflexsmall"); (95, "hyphensuperior");
   (96, "Gravesmall"); (97, "Asmall"); (98, "Bsmall"); (99, "Csmall");
   (100, "Dsmall"); (101, "Esmall"); (102, "Fsmall"); (103, "Gsmall");
   (104, "Hsmall"); (105, "Ismall"); (106, "Jsmall"); (107, "Ksmall");
   (108, "Lsmall"); (109, "Msmall"); (110, "Nsmall"); (111, "Osmall");
   (112, "Psmall"); (113, "Qsmall"); (114, "Rsmall"); (115, "Ssmall");
   (116, "Tsmall"); (117, "Usmall"); (118, "Vsmall"); (119, "Wsmall");
   (120, "Xsmall"); (121, "Ysmall"); (122, "Zsmall"); (123, "colonmonetary");
   (124, "onefitted"); (125, "rupiah"); (126, "Tildesmall"); (127, ".notdef");
   (128, ".notdef"); (129, ".notdef"); (130, ".notdef"); (131, ".notdef");
   (132, ".notdef"); (133, ".notdef"); (134, ".notdef"); (135, ".notdef");
   (136, ".notdef"); (137, ".notdef"); (138, ".notdef"); (139, ".notdef");
   (140, ".notdef"); (141, ".notdef"); (142, ".notdef"); (143, ".notdef");
   (144, ".notdef"); (145, ".notdef"); (146, ".notdef"); (147, ".notdef");
   (148, ".notdef"); (149, ".notdef"); (150, ".notdef"); (151, ".notdef");
   (152, ".notdef"); (153, ".notdef"); (154, ".notdef"); (155, ".notdef");
   (156, ".notdef"); (157, ".notdef"); (158, ".notdef"); (159, ".notdef");
   (160, ".notdef"); (161, "exclamdownsmall"); (162, "centoldstyle"); (163, "Lslashsmall");
   (164, ".notdef"); (165, ".notdef"); (166, "Scaronsmall"); (167, "Zcaronsmall");
   (168, "Dieresissmall"); (169, "Brevesmall"); (170, "Caronsmall"); (171, ".notdef");
   (172, "Dotaccentsmall"); (173, ".notdef"); (174, ".notdef"); (175, "Macronsmall");
   (176, ".notdef"); (177, ".notdef"); (178, "figuredash"); (179, "hypheninferior");
   (180, ".notdef"); (181, ".notdef"); (182, "Ogoneksmall"); (183, "Ringsmall");
   (184, "Cedillasmall"); (185, ".notdef"); (186, ".notdef"); (187, ".notdef");
   (188, "onequarter"); (189, "onehalf"); (190, "threequarters"); (191, "questiondownsmall");
   (192, "oneeighth"); (193, "threeeighths"); (194, "fiveeighths"); (195, "seveneighths");
   (196, "onethird"); (197, "twothirds"); (198, ".notdef"); (199, ".notdef");
   (200, "zerosuperior"); (201, "onesuperior"); (202, "twosuperior"); (203, "threesuperior");
   (204, "foursuperior"); (205, "fivesuperior"); (206, "sixsuperior"); (207, "sevensuperior");
   (208, "eightsuperior"); (209, "ninesuperior"); (210, "zeroinferior"); (211, "oneinferior");
   (212, "twoinferior"); (213, "threeinferior"); (214, "fourinferior"); (215, "fiveinferior");
   (216, "sixinferior"); (217, "seveninferior"); (218, "eightinferior"); (219, "nineinferior");
   (220, "centinferior"); (221, "dollarinferior"); (222, "periodinferior"); (223, "commainferior");
   (224, "Agravesmall"); (225, "Aacutesmall"); (226, "Acircumflexsmall"); (227, "Atildesmall");
   (228, "Adieresissmall"); (229, "Aringsmall"); (230, "AEsmall"); (231, "Ccedillasmall");
   (232, "Egravesmall"); (233, "Eacutesmall"); (234, "Ecircumflexsmall"); (235, "Edieresissmall");
   (236, "Igravesmall"); (237, "Iacutesmall"); (238, "Icircumflexsmall"); (239, "Idieresissmall");
   (240, "Ethsmall"); (241, "Ntildesmall"); (242, "Ogravesmall"); (243, "Oacutesmall");
   (244, "Ocircumflexsmall"); (245, "Otildesmall"); (246, "Odieresissmall"); (247, "OEsmall");
   (248, "Oslashsmall"); (249, "Ugravesmall"); (250, "Uacutesmall"); (251, "Ucircumflexsmall");
   (252, "Udieresissmall"); (253, "Yacutesmall"); (254, "Thornsmall"); (255, "Ydieresissmall")
  ].

(** the arms of [get_iso_adobe] (src/compact1/character_set.rs:167-399). *)
Definition iso_adobe_names : list (Z * string) :=
  [
   (1, "space"); (2, "exclam"); (3, "quotedbl"); (4, "numbersign");
   (5, "dollar"); (6, "percent"); (7, "ampersand"); (8, "quoteright");
   (9, "parenleft"); (10, "parenright"); (11, "asterisk"); (12, "plus");
   (13, "comma"); (14, "hyphen"); (15, "period"); (16, "slash");
   (17, "zero"); (18, "one"); (19, "two"); (20, "three");
   (21, "four"); (22, "five"); (23, "six"); (24, "seven");
   (25, "eight"); (26, "nine"); (27, "colon"); (28, "semicolon");
   (29, "less"); (30, "equal"); (31, "greater"); (32, "question");
   (33, "at"); (34, "A"); (35, "B"); (36, "C");
   (37, "D"); (38, "E"); (39, "F"); (40, "G");
   (41, "H"); (42, "I"); (43, "J"); (44, "K");
   (45, "L"); (46, "M"); (47, "N"); (48, "O");
   (49, "P"); (50, "Q"); (51, "R"); (52, "S");
   (53, "T"); (54, "U"); (55, "V"); (56, "W");
   (57, "X"); (58, "Y"); (59, "Z"); (60, "bracketleft");
   (61, "backslash"); (62, "bracketright"); (63, "asciicircum"); (64, "underscore");
   (65, "quoteleft"); (66, "a"); (67, "b"); (68, "c");
   (69, "d"); (70, "e"); (71, "f"); (72, "g");
   (73, "h"); (74, "i"); (75, "j"); (76, "k");
   (77, "l"); (78, "m"); (79, "n"); (80, "o");
   (81, "p"); (82, "q"); (83, "r"); (84, "s");
   (85, "t"); (86, "u"); (87, "v"); (88, "w");
   (89, "x"); (90, "y"); (91, "z"); (92, "braceleft");
   (93, "bar"); (94, "braceright"); (95, "asciitilde"); (96, "exclamdown");
   (97, "cent"); (98, "sterling"); (99, "fraction"); (100, "yen");
   (101, "florin"); (102, "section"); (103, "currency"); (104, "quotesingle");
   (105, "quotedblleft"); (106, "guillemotleft"); (107, "guilsinglleft"); (108, "guilsinglright");
   (109, "fi"); (110, "fl"); (111, "endash"); (112, "dagger");
   (113, "daggerdbl"); (114, "periodcentered"); (115, "paragraph"); (116, "bullet");
   (117, "quotesinglbase"); (118, "quotedblbase"); (119, "quotedblright"); (120, "guillemotright");
   (121, "ellipsis"); (122, "perthousand"); (123, "questiondown"); (124, "grave");
   (125, "acute"); (126, "circumflex"); (127, "tilde"); (128, "macron");
   (129, "breve"); (130, "dotaccent"); (131, "dieresis"); (132, "ring");
   (133, "cedilla"); (134, "hungarumlaut"); (135, "ogonek"); (136, "caron");
   (137, "emdash"); (138, "AE"); (139, "ordfeminine"); (140, "Lslash");
   (141, "Oslash"); (142, "OE"); (143, "ordmasculine"); (144, "ae");
   (145, "dotlessi"); (146, "lslash"); (147, "oslash"); (148, "oe");
   (149, "germandbls"); (150, "onesuperior"); (151, "logicalnot"); (152, "mu");
   (153, "trademark"); (154, "Eth"); (155, "onehalf"); (156, "plusminus");
   (157, "Thorn"); (158, "onequarter"); (159, "divide"); (160, "brokenbar");
   (161, "degree"); (162, "thorn"); (163, "threequarters"); (164, "twosuperior");
   (165, "registered"); (166, "minus"); (167, "eth"); (168, "multiply");
   (169, "threesuperior"); (170, "copyright"); (171, "Aacute"); (172, "Acircumflex");
   (173, "Adieresis"); (174, "Agrave"); (175, "Aring"); (176, "Atilde");
   (177, "Ccedilla"); (178, "Eacute"); (179, "Ecircumflex"); (180, "Edieresis");
   (181, "Egrave"); (182, "Iacute"); (183, "Icircumflex"); (184, "Idieresis");
   (185, "Igrave"); (186, "Ntilde"); (187, "Oacute"); (188, "Ocircumflex");
   (189, "Odieresis"); (190, "Ograve"); (191, "Otilde"); (192, "Scaron");
   (193, "Uacute"); (194, "Ucircumflex"); (195, "Udieresis"); (196, "Ugrave");
   (197, "Yacute"); (198, "Ydieresis"); (199, "Zcaron"); (200, "aacute");
   (201, "acircumflex"); (202, "adieresis"); (203, "agrave"); (204, "aring");
   (205, "atilde"); (206, "ccedilla"); (207, "eacute"); (208, "ecircumflex");
   (209, "edieresis"); (210, "egrave"); (211, "iacute"); (212, "icircumflex");
   (213, "idieresis"); (214, "igrave"); (215, "ntilde"); (216, "oacute");
   (217, "ocircumflex"); (218, "odieresis"); (219, "ograve"); (220, "otilde");
   (221, "scaron"); (222, "uacute"); (223, "ucircumflex"); (224, "udieresis");
   (225, "ugrave"); (226, "yacute"); (227, "ydieresis"); (228, "zcaron")
  ].

(** the arms of [get_expert] (src/compact1/character_set.rs:401-570). *)
Definition expert_names : list (Z * string) :=
  [
   (1, "space"); (229, "exclamsmall"); (230, "Hungarumlautsmall"); (231, "dollaroldstyle");
   (232, "dollarsuperior"); (233, "ampersandsmall"); (234, "Acutesmall"); (235, "parenleftsuperior");
   (236, "parenrightsuperior"); (237, "twodotenleader"); (238, "onedotenleader"); (13, "comma");
   (14, "hyphen"); (15, "period"); (99, "fraction"); (239, "zerooldstyle");
   (240, "oneoldstyle"); (241, "twooldstyle"); (242, "threeoldstyle"); (243, "fouroldstyle");
   (244, "fiveoldstyle"); (245, "sixoldstyle"); (246, "sevenoldstyle"); (247, "eightoldstyle");
   (248, "nineoldstyle"); (27, "colon"); (28, "semicolon"); (249, "commasuperior");
   (250, "threequartersemdash"); (251, "periodsuperior"); (252, "questionsmall"); (253, "asuperior");
   (254, "bsuperior"); (255, "centsuperior"); (256, "dsuperior"); (257, "esuperior");
   (258, "isuperior"); (259, "lsuperior"); (260, "msuperior"); (261, "nsuperior");
   (262, "osuperior"); (263, "rsuperior"); (264, "ssuperior"); (265, "tsuperior");
   (266, "ff"); (109, "fi"); (110, "fl"); (267, "ffi");
   (268, "ffl"); (269, "parenleftinferior"); (270, "parenrightinferior"); (271, "Circumflexsmall");
   (272, "hyphensuperior"); (273, "Gravesmall"); (274, "Asmall"); (275, "Bsmall");
   (276, "Csmall"); (277, "Dsmall"); (278, "Esmall"); (279, "Fsmall");
   (280, "Gsmall"); (281, "Hsmall"); (282, "Ismall"); (283, "Jsmall");
   (284, "Ksmall"); (285, "Lsmall"); (286, "Msmall"); (287, "Nsmall");
   (288, "Osmall"); (289, "Psmall"); (290, "Qsmall"); (291, "Rsmall");
   (292, "Ssmall"); (293, "Tsmall"); (294, "Usmall"); (295, "Vsmall");
   (296, "Wsmall"); (297, "Xsmall"); (298, "Ysmall"); (299, "Zsmall");
   (300, "colonmonetary"); (301, "onefitted"); (302, "rupiah"); (303, "Tildesmall");
   (304, "exclamdownsmall"); (305, "centoldstyle"); (306, "Lslashsmall"); (307, "Scaronsmall");
   (308, "Zcaronsmall"); (309, "Dieresissmall"); (310, "Brevesmall"); (311, "Caronsmall");
   (312, "Dotaccentsmall"); (313, "Macronsmall"); (314, "figuredash"); (315, "hypheninferior");
   (316, "Ogoneksmall"); (317, "Ringsmall"); (318, "Cedillasmall"); (158, "onequarter");
   (155, "onehalf"); (163, "threequarters"); (319, "questiondownsmall"); (320, "oneeighth");
   (321, "threeeighths"); (322, "fiveeighths"); (323, "seveneighths"); (324, "onethird");
   (325, "twothirds"); (326, "zerosuperior"); (150, "onesuperior"); (164, "twosuperior");
   (169, "threesuperior"); (327, "foursuperior"); (328, "fivesuperior"); (329, "sixsuperior");
   (330, "sevensuperior"); (331, "eightsuperior"); (332, "ninesuperior"); (333, "zeroinferior");
   (334, "oneinferior"); (335, "twoinferior"); (336, "threeinferior"); (337, "fourinferior");
   (338, "fiveinferior"); (339, "sixinferior"); (340, "seveninferior"); (341, "eightinferior");
   (342, "nineinferior"); (343, "centinferior"); (344, "dollarinferior"); (345, "periodinferior");
   (346, "commainferior"); (347, "Agravesmall"); (348, "Aacutesmall"); (349, "Acircumflexsmall");
   (350, "Atildesmall"); (351, "Adieresissmall"); (352, "Aringsmall"); (353, "AEsmall");
   (354, "Ccedillasmall"); (355, "Egravesmall"); (356, "Eacutesmall"); (357, "Ecircumflexsmall");
   (358, "Edieresissmall"); (359, "Igravesmall"); (360, "Iacutesmall"); (361, "Icircumflexsmall");
   (362, "Idieresissmall"); (363, "Ethsmall"); (364, "Ntildesmall"); (365, "Ogravesmall");
   (366, "Oacutesmall"); (367, "Ocircumflexsmall"); (368, "Otildesmall"); (369, "Odieresissmall");
   (370, "OEsmall"); (371, "Oslashsmall"); (372, "Ugravesmall"); (373, "Uacutesmall");
   (374, "Ucircumflexsmall"); (375, "Udieresissmall"); (376, "Yacutesmall"); (377, "Thornsmall");
   (378, "Ydieresissmall")
  ].

(** the arms of [get_expert_subset] (src/compact1/character_set.rs:572-662). *)
Definition expert_subset_names : list (Z * string) :=
  [
   (1, "space"); (231, "dollaroldstyle"); (232, "dollarsuperior"); (235, "parenleftsuperior");
   (236, "parenrightsuperior"); (237, "twodotenleader"); (238, "onedotenleader"); (13, "comma");
   (14, "hyphen"); (15, "period"); (99, "fraction"); (239, "zerooldstyle");
   (240, "oneoldstyle"); (241, "twooldstyle"); (242, "threeoldstyle"); (243, "fouroldstyle");
   (244, "fiveoldstyle"); (245, "sixoldstyle"); (246, "sevenoldstyle"); (247, "eightoldstyle");
   (248, "nineoldstyle"); (27, "colon"); (28, "semicolon"); (249, "commasuperior");
   (250, "threequartersemdash"); (251, "periodsuperior"); (253, "asuperior"); (254, "bsuperior");
   (255, "centsuperior"); (256, "dsuperior"); (257, "esuperior"); (258, "isuperior");
   (259, "lsuperior"); (260, "msuperior"); (261, "nsuperior"); (262, "osuperior");
   (263, "rsuperior"); (264, "ssuperior"); (265, "tsuperior"); (266, "ff");
   (109, "fi"); (110, "fl"); (267, "ffi"); (268, "ffl");
   (269, "parenleftinferior"); (270, "parenrightinferior"); (272, "hyphensuperior"); (300, "colonmonetary");
   (301, "onefitted"); (302, "rupiah"); (305, "centoldstyle"); (314, "figuredash");
   (315, "hypheninferior"); (158, "onequarter"); (155, "onehalf"); (163, "threequarters");
   (320, "oneeighth"); (321, "threeeighths"); (322, "fiveeighths"); (323, "seveneighths");
   (324, "onethird"); (325, "twothirds"); (326, "zerosuperior"); (150, "onesuperior");
   (164, "twosuperior"); (169, "threesuperior"); (327, "foursuperior"); (328, "fivesuperior");
   (329, "sixsuperior"); (330, "sevensuperior"); (331, "eightsuperior"); (332, "ninesuperior");
   (333, "zeroinferior"); (334, "oneinferior"); (335, "twoinferior"); (336, "threeinferior");
   (337, "fourinferior"); (338, "fiveinferior"); (339, "sixinferior"); (340, "seveninferior");
   (341, "eightinferior"); (342, "nineinferior"); (343, "centinferior"); (344, "dollarinferior");
   (345, "periodinferior"); (346, "commainferior")
  ].
