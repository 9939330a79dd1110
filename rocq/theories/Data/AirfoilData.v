(** pygsp/data/pointclouds/airfoil.mat.  Generated by tools/extract_data.py. *)
From Coq Require Import List NArith.
Import ListNotations.
Open Scope N_scope.
Definition airfoil_pairs_0 : list (N * N) := [
(1,2); (2,3); (3,10); (5,10); (4,11); (8,11); (7,12); (9,12); (4,13); (7,13); (5,14); (8,14);
(2,15); (3,15); (3,16); (10,16); (15,16); (5,17); (10,17); (14,17); (1,18); (6,19); (8,20); (11,20);
(8,21); (14,21); (20,21); (1,22); (2,22); (15,22); (18,22); (4,23); (11,23); (10,24); (16,24); (17,24);
(4,25); (13,25); (23,25); (14,26); (17,26); (21,26); (11,27); (20,27); (23,27); (6,28); (18,28); (17,29);
(24,29); (26,29); (20,30); (27,30); (15,31); (22,31); (20,32); (21,32); (30,32); (15,33); (16,33); (31,33);
(7,34); (13,34); (16,35); (24,35); (33,35); (7,36); (12,36); (34,36); (21,37); (26,37); (32,37); (13,38);
(25,38); (34,38); (24,39); (29,39); (35,39); (23,40); (27,40); (9,41); (12,41); (36,41); (26,42); (29,42);
(37,42); (27,43); (30,43); (40,43); (9,44); (41,44); (30,45); (32,45); (43,45); (18,46); (22,46); (32,47);
(37,47); (45,47); (23,48); (25,48); (40,48); (22,49); (31,49); (46,49); (29,50); (39,50); (42,50); (40,51);
(43,51); (43,52); (45,52); (51,52); (6,53); (19,53); (28,53); (33,54); (35,54); (37,55); (47,55); (37,56);
(42,56); (55,56); (35,57); (39,57); (54,57); (31,58); (33,58); (49,58); (54,58); (25,59); (38,59); (48,59);
(45,60); (47,60); (52,60); (42,61); (50,61); (56,61); (39,62); (50,62); (57,62); (47,63); (55,63); (60,63);
(51,64); (52,64); (40,65); (48,65); (51,65); (64,65); (52,66); (60,66); (64,66); (55,67); (63,67); (18,68);
(28,68); (46,68); (55,69); (56,69); (67,69); (56,70); (61,70); (60,71); (63,71); (66,71); (64,72); (65,72);
(63,73); (67,73); (71,73); (56,74); (69,74); (70,74); (50,75); (61,75); (62,75); (34,76); (38,76); (48,77);
(65,77); (64,78); (66,78); (72,78); (61,79); (70,79); (75,79); (67,80); (69,80); (73,80); (66,81); (71,81);
(78,81); (54,82); (57,82); (57,83); (62,83); (82,83); (65,84); (72,84); (77,84); (38,85); (59,85); (76,85);
(69,86); (74,86); (80,86); (34,87); (36,87); (76,87); (71,88); (73,88); (62,89); (75,89); (83,89); (70,90);
(74,90); (73,91); (80,91); (88,91); (46,92); (49,92); (49,93); (58,93); (92,93); (72,94); (78,94); (84,94);
(70,95); (79,95); (90,95); (74,96); (86,96); (90,96); (71,97); (81,97); (88,97); (48,98); (59,98); (77,98);
(80,99); (86,99); (91,99); (81,100); (97,100); (78,101); (81,101); (94,101); (100,101); (75,102); (79,102); (79,103);
(95,103); (102,103); (86,104); (96,104); (99,104); (36,105); (41,105); (87,105); (75,106); (89,106); (102,106); (90,107);
(96,107); (54,108); (58,108); (82,108); (93,108); (88,109); (91,109); (96,110); (104,110); (107,110); (88,111); (97,111);
(109,111); (82,112); (83,112); (90,113); (95,113); (107,113); (77,114); (84,114); (84,115); (94,115); (114,115); (19,116);
(53,116); (99,117); (104,117); (97,118); (100,118); (111,118); (95,119); (103,119); (113,119); (91,120); (99,120); (109,120);
(117,120); (100,121); (101,121); (118,121); (59,122); (85,122); (98,122); (104,123); (110,123); (117,123); (94,124); (101,124);
(115,124); (121,124); (107,125); (113,125); (107,126); (110,126); (123,126); (125,126); (83,127); (89,127); (112,127); (109,128);
(111,128); (102,129); (103,129); (109,130); (120,130); (128,130); (111,131); (118,131); (128,131); (89,132); (106,132); (127,132);
(103,133); (119,133); (129,133); (118,134); (121,134); (131,134); (102,135); (106,135); (129,135); (117,136); (120,136); (28,137);
(53,137); (68,137); (113,138); (119,138); (125,138); (123,139); (126,139); (77,140); (98,140); (114,140); (125,141); (126,141);
(117,142); (123,142); (136,142); (139,142); (120,143); (130,143); (136,143); (126,144); (139,144); (141,144); (121,145); (124,145);
(134,145); (125,146); (138,146); (141,146); (119,147); (133,147); (138,147); (128,148); (130,148); (128,149); (131,149); (148,149);
(106,150); (132,150); (135,150); (139,151); (142,151); (139,152); (144,152); (151,152); (131,153); (134,153); (149,153); (141,154);
(144,154); (114,155); (115,155); (140,155)].
Definition airfoil_pairs_1 : list (N * N) := [
(144,156); (152,156); (154,156); (141,157); (146,157); (154,157); (130,158); (143,158); (148,158); (115,159); (124,159); (155,159);
(136,160); (142,160); (82,161); (108,161); (112,161); (136,162); (143,162); (160,162); (154,163); (157,163); (138,164); (146,164);
(129,165); (133,165); (152,166); (156,166); (154,167); (156,167); (163,167); (138,168); (147,168); (142,169); (151,169); (160,169);
(151,170); (152,170); (166,170); (46,171); (68,171); (92,171); (146,172); (157,172); (164,172); (41,173); (44,173); (105,173);
(138,174); (164,174); (163,175); (167,175); (156,176); (166,176); (167,176); (129,177); (135,177); (165,177); (134,178); (145,178);
(153,178); (157,179); (163,179); (175,179); (167,180); (175,180); (176,180); (138,181); (168,181); (174,181); (148,182); (149,182);
(151,183); (169,183); (170,183); (166,184); (176,184); (143,185); (158,185); (162,185); (166,186); (170,186); (184,186); (133,187);
(147,187); (165,187); (164,188); (172,188); (176,189); (180,189); (184,189); (157,190); (179,190); (175,191); (180,191); (175,192);
(179,192); (191,192); (157,193); (172,193); (190,193); (180,194); (189,194); (191,194); (170,195); (183,195); (184,196); (189,196);
(164,197); (174,197); (188,197); (184,198); (186,198); (196,198); (179,199); (190,199); (192,199); (189,200); (194,200); (196,200);
(172,201); (193,201); (170,202); (186,202); (195,202); (194,203); (200,203); (191,204); (194,204); (203,204); (124,205); (145,205);
(159,205); (191,206); (192,206); (204,206); (196,207); (198,207); (200,207); (172,208); (188,208); (201,208); (186,209); (202,209);
(192,210); (199,210); (206,210); (190,211); (193,211); (190,212); (199,212); (211,212); (148,213); (158,213); (182,213); (188,214);
(208,214); (200,215); (203,215); (207,215); (186,216); (198,216); (209,216); (193,217); (201,217); (211,217); (203,218); (204,218);
(215,218); (169,219); (183,219); (160,220); (169,220); (219,220); (198,221); (207,221); (216,221); (199,222); (210,222); (212,222);
(204,223); (206,223); (218,223); (183,224); (195,224); (219,224); (201,225); (208,225); (217,225); (188,226); (197,226); (214,226);
(174,227); (181,227); (197,227); (207,228); (215,228); (221,228); (195,229); (202,229); (224,229); (206,230); (210,230); (223,230);
(149,231); (153,231); (182,231); (208,232); (214,232); (225,232); (135,233); (150,233); (177,233); (215,234); (218,234); (228,234);
(202,235); (209,235); (229,235); (160,236); (162,236); (220,236); (209,237); (216,237); (235,237); (218,238); (223,238); (234,238);
(210,239); (222,239); (230,239); (211,240); (212,240); (147,241); (168,241); (187,241); (211,242); (217,242); (240,242); (212,243);
(222,243); (240,243); (216,244); (221,244); (237,244); (223,245); (230,245); (238,245); (217,246); (225,246); (242,246); (221,247);
(228,247); (244,247); (228,248); (234,248); (247,248); (225,249); (232,249); (246,249); (214,250); (226,250); (232,250); (222,251);
(239,251); (243,251); (197,252); (226,252); (227,252); (230,253); (239,253); (245,253); (234,254); (238,254); (248,254); (238,255);
(245,255); (254,255); (239,256); (251,256); (253,256); (181,257); (227,257); (240,258); (242,258); (235,259); (237,259); (240,260);
(243,260); (258,260); (242,261); (246,261); (258,261); (237,262); (244,262); (259,262); (229,263); (235,263); (259,263); (245,264);
(253,264); (255,264); (246,265); (249,265); (261,265); (244,266); (247,266); (262,266); (232,267); (249,267); (250,267); (168,268);
(241,268); (224,269); (229,269); (263,269); (243,270); (251,270); (260,270); (247,271); (248,271); (266,271); (165,272); (177,272);
(248,273); (254,273); (271,273); (168,274); (181,274); (257,274); (268,274); (253,275); (256,275); (264,275); (219,276); (224,276);
(269,276); (254,277); (255,277); (273,277); (226,278); (250,278); (252,278); (251,279); (256,279); (270,279); (249,280); (265,280);
(267,280); (158,281); (185,281); (213,281); (255,282); (264,282); (277,282); (162,283); (185,283); (236,283); (256,284); (275,284);
(279,284); (258,285); (261,285); (261,286); (265,286); (285,286); (265,287); (280,287); (286,287); (258,288); (260,288); (285,288);
(264,289); (275,289); (282,289); (250,290); (267,290); (278,290); (260,291); (270,291); (288,291); (219,292); (220,292); (276,292);
(270,293); (279,293); (291,293); (267,294); (280,294); (290,294); (98,295); (140,295); (275,296); (284,296); (289,296); (227,297);
(252,297); (257,297); (279,298); (284,298)].
Definition airfoil_pairs_2 : list (N * N) := [
(293,298); (280,299); (287,299); (294,299); (284,300); (296,300); (298,300); (285,301); (286,301); (285,302); (288,302); (301,302);
(286,303); (287,303); (299,303); (301,303); (288,304); (291,304); (302,304); (291,305); (293,305); (304,305); (293,306); (298,306);
(305,306); (252,307); (278,307); (297,307); (153,308); (178,308); (231,308); (298,309); (300,309); (306,309); (112,310); (127,310);
(161,310); (290,311); (294,311); (220,312); (236,312); (292,312); (294,313); (299,313); (311,313); (304,314); (305,314); (305,315);
(306,315); (314,315); (165,316); (187,316); (272,316); (301,317); (302,317); (302,318); (304,318); (314,318); (317,318); (301,319);
(303,319); (317,319); (299,320); (303,320); (313,320); (319,320); (306,321); (309,321); (315,321); (145,322); (178,322); (205,322);
(257,323); (274,323); (297,323); (278,324); (290,324); (307,324); (311,324); (314,325); (315,325); (314,326); (318,326); (325,326);
(315,327); (321,327); (325,327); (317,328); (318,328); (326,328); (317,329); (319,329); (328,329); (319,330); (320,330); (329,330);
(313,331); (320,331); (330,331); (182,332); (213,332); (231,332); (311,333); (313,333); (331,333); (325,334); (326,334); (325,335);
(327,335); (334,335); (326,336); (328,336); (334,336); (311,337); (324,337); (333,337); (307,338); (324,338); (297,339); (307,339);
(323,339); (338,339); (328,340); (329,340); (336,340); (329,341); (330,341); (340,341); (268,342); (274,342); (323,342); (330,343);
(331,343); (341,343); (331,344); (333,344); (343,344); (140,345); (155,345); (295,345); (334,346); (335,346); (334,347); (336,347);
(346,347); (185,348); (281,348); (283,348); (236,349); (283,349); (312,349); (336,350); (340,350); (347,350); (132,351); (150,351);
(340,352); (341,352); (350,352); (333,353); (337,353); (344,353); (324,354); (337,354); (338,354); (341,355); (343,355); (352,355);
(127,356); (132,356); (310,356); (351,356); (343,357); (344,357); (355,357); (346,358); (347,358); (347,359); (350,359); (358,359);
(350,360); (352,360); (359,360); (241,361); (268,361); (342,361); (344,362); (353,362); (357,362); (352,363); (355,363); (360,363);
(337,364); (353,364); (354,364); (355,365); (357,365); (363,365); (358,366); (359,366); (338,367); (354,367); (359,368); (360,368);
(366,368); (187,369); (241,369); (316,369); (361,369); (357,370); (362,370); (365,370); (360,371); (363,371); (368,371); (177,372);
(233,372); (272,372); (353,373); (362,373); (364,373); (363,374); (365,374); (371,374); (354,375); (364,375); (367,375); (366,376);
(368,376); (365,377); (370,377); (374,377); (338,378); (339,378); (367,378); (362,379); (370,379); (373,379); (368,380); (371,380);
(376,380); (323,381); (339,381); (342,381); (213,382); (281,382); (332,382); (370,383); (377,383); (379,383); (371,384); (374,384);
(380,384); (364,385); (373,385); (375,385); (374,386); (377,386); (384,386); (376,387); (380,387); (367,388); (375,388); (378,388);
(373,389); (379,389); (385,389); (380,390); (384,390); (387,390); (377,391); (383,391); (386,391); (379,392); (383,392); (389,392);
(391,392); (384,393); (386,393); (390,393); (378,394); (388,394); (339,395); (378,395); (381,395); (394,395); (375,396); (385,396);
(388,396); (386,397); (391,397); (393,397); (387,398); (390,398); (391,399); (392,399); (397,399); (390,400); (393,400); (398,400);
(178,401); (308,401); (322,401); (283,402); (348,402); (349,402); (389,403); (392,403); (399,403); (385,404); (389,404); (396,404);
(393,405); (397,405); (400,405); (150,406); (233,406); (351,406); (388,407); (394,407); (396,407); (399,408); (403,408); (397,409);
(399,409); (405,409); (408,409); (231,410); (308,410); (332,410); (398,411); (400,411); (389,412); (403,412); (404,412); (400,413);
(405,413); (411,413); (405,414); (409,414); (413,414); (394,415); (395,415); (407,415); (403,416); (408,416); (412,416); (396,417);
(404,417); (407,417); (408,418); (409,418); (414,418); (416,418); (411,419); (413,419); (413,420); (414,420); (419,420); (155,421);
(159,421); (345,421); (414,422); (418,422); (420,422); (281,423); (348,423); (382,423); (412,424); (416,424); (416,425); (418,425);
(422,425); (424,425); (407,426); (415,426); (417,426); (381,427); (395,427); (415,427); (404,428); (412,428); (417,428); (424,428);
(419,429); (420,429); (420,430); (422,430); (429,430); (159,431); (205,431); (421,431); (422,432); (425,432); (430,432); (424,433);
(425,433); (432,433); (342,434); (361,434)].
Definition airfoil_pairs_3 : list (N * N) := [
(381,434); (429,435); (430,435); (424,436); (428,436); (433,436); (430,437); (432,437); (435,437); (415,438); (426,438); (427,438);
(417,439); (426,439); (428,439); (432,440); (433,440); (437,440); (272,441); (316,441); (372,441); (98,442); (122,442); (433,443);
(436,443); (440,443); (435,444); (437,444); (428,445); (436,445); (439,445); (361,446); (369,446); (434,446); (437,447); (440,447);
(444,447); (381,448); (427,448); (434,448); (436,449); (443,449); (445,449); (426,450); (438,450); (439,450); (440,451); (443,451);
(447,451); (444,452); (447,452); (443,453); (449,453); (451,453); (348,454); (402,454); (423,454); (447,455); (451,455); (452,455);
(427,456); (438,456); (448,456); (449,457); (453,457); (233,458); (372,458); (406,458); (439,459); (445,459); (450,459); (205,460);
(322,460); (431,460); (445,461); (449,461); (457,461); (459,461); (332,462); (382,462); (410,462); (451,463); (453,463); (455,463);
(452,464); (455,464); (453,465); (457,465); (463,465); (98,466); (295,466); (442,466); (455,467); (463,467); (464,467); (457,468);
(461,468); (465,468); (438,469); (450,469); (456,469); (459,470); (461,470); (468,470); (463,471); (465,471); (467,471); (450,472);
(459,472); (469,472); (468,473); (470,473); (464,474); (467,474); (308,475); (401,475); (410,475); (465,476); (468,476); (471,476);
(473,476); (467,477); (471,477); (474,477); (316,478); (369,478); (441,478); (459,479); (470,479); (472,479); (471,480); (476,480);
(477,480); (470,481); (473,481); (479,481); (473,482); (476,482); (480,482); (481,482); (474,483); (477,483); (477,484); (480,484);
(483,484); (480,485); (482,485); (484,485); (448,486); (456,486); (469,487); (472,487); (472,488); (479,488); (487,488); (456,489);
(469,489); (486,489); (487,489); (479,490); (481,490); (488,490); (481,491); (482,491); (485,491); (490,491); (483,492); (484,492);
(484,493); (485,493); (492,493); (382,494); (423,494); (462,494); (434,495); (448,495); (486,495); (485,496); (491,496); (493,496);
(490,497); (491,497); (496,497); (488,498); (490,498); (497,498); (492,499); (493,499); (322,500); (401,500); (460,500); (487,501);
(488,501); (498,501); (369,502); (446,502); (478,502); (493,503); (496,503); (499,503); (434,504); (446,504); (495,504); (295,505);
(345,505); (487,506); (489,506); (501,506); (496,507); (497,507); (503,507); (497,508); (498,508); (507,508); (499,509); (503,509);
(372,510); (441,510); (458,510); (486,511); (489,511); (506,511); (423,512); (454,512); (494,512); (498,513); (501,513); (508,513);
(503,514); (507,514); (509,514); (92,515); (93,515); (501,516); (506,516); (513,516); (507,517); (508,517); (514,517); (509,518);
(514,518); (508,519); (513,519); (517,519); (514,520); (517,520); (518,520); (506,521); (511,521); (516,521); (410,522); (462,522);
(475,522); (513,523); (516,523); (519,523); (517,524); (519,524); (520,524); (518,525); (520,525); (486,526); (495,526); (511,526);
(516,527); (521,527); (523,527); (519,528); (523,528); (524,528); (520,529); (524,529); (525,529); (511,530); (521,530); (526,530);
(524,531); (528,531); (529,531); (446,532); (502,532); (504,532); (523,533); (527,533); (528,533); (495,534); (504,534); (526,534);
(525,535); (529,535); (528,536); (531,536); (533,536); (76,537); (85,537); (521,538); (527,538); (530,538); (529,539); (531,539);
(535,539); (421,540); (431,540); (401,541); (475,541); (500,541); (531,542); (536,542); (539,542); (527,543); (533,543); (538,543);
(441,544); (478,544); (510,544); (533,545); (536,545); (542,545); (543,545); (535,546); (539,546); (539,547); (542,547); (546,547);
(542,548); (545,548); (547,548); (351,549); (406,549); (462,550); (494,550); (522,550); (530,551); (538,551); (431,552); (460,552);
(540,552); (406,553); (458,553); (549,553); (526,554); (530,554); (551,554); (538,555); (543,555); (551,555); (543,556); (545,556);
(548,556); (555,556); (93,557); (108,557); (515,557); (546,558); (547,558); (504,559); (532,559); (534,559); (547,560); (548,560);
(558,560); (478,561); (502,561); (544,561); (526,562); (534,562); (554,562); (494,563); (512,563); (550,563); (548,564); (556,564);
(560,564); (345,565); (421,565); (505,565); (122,566); (442,566); (555,567); (556,567); (564,567); (551,568); (555,568); (567,568);
(558,569); (560,569); (551,570); (554,570); (568,570); (560,571); (564,571); (569,571); (564,572); (567,572); (571,572); (458,573);
(510,573); (553,573); (502,574); (532,574)].
Definition airfoil_pairs_4 : list (N * N) := [
(561,574); (554,575); (562,575); (570,575); (534,576); (559,576); (562,576); (567,577); (568,577); (572,577); (569,578); (571,578);
(475,579); (522,579); (541,579); (351,580); (356,580); (549,580); (571,581); (572,581); (578,581); (568,582); (570,582); (577,582);
(572,583); (577,583); (581,583); (295,584); (466,584); (505,584); (460,585); (500,585); (552,585); (570,586); (575,586); (582,586);
(578,587); (581,587); (577,588); (582,588); (583,588); (532,589); (559,589); (574,589); (562,590); (575,590); (576,590); (581,591);
(583,591); (587,591); (161,592); (310,592); (582,593); (586,593); (588,593); (583,594); (588,594); (591,594); (575,595); (586,595);
(590,595); (559,596); (576,596); (589,596); (588,597); (593,597); (594,597); (510,598); (544,598); (573,598); (587,599); (591,599);
(591,600); (594,600); (599,600); (586,601); (593,601); (595,601); (310,602); (356,602); (580,602); (592,602); (594,603); (597,603);
(600,603); (522,604); (550,604); (579,604); (561,605); (574,605); (576,606); (590,606); (596,606); (593,607); (597,607); (601,607);
(603,607); (85,608); (122,608); (537,608); (566,608); (421,609); (540,609); (565,609); (550,610); (563,610); (604,610); (599,611);
(600,611); (500,612); (541,612); (585,612); (590,613); (595,613); (606,613); (600,614); (603,614); (611,614); (595,615); (601,615);
(613,615); (603,616); (607,616); (614,616); (574,617); (589,617); (605,617); (601,618); (607,618); (615,618); (616,618); (589,619);
(596,619); (617,619); (540,620); (552,620); (609,620); (611,621); (614,621); (614,622); (616,622); (621,622); (596,623); (606,623);
(619,623); (76,624); (87,624); (537,624); (616,625); (618,625); (622,625); (613,626); (615,626); (544,627); (561,627); (598,627);
(605,627); (606,628); (613,628); (623,628); (626,628); (615,629); (618,629); (625,629); (626,629); (541,630); (579,630); (612,630);
(549,631); (553,631); (553,632); (573,632); (631,632); (621,633); (622,633); (622,634); (625,634); (633,634); (619,635); (623,635);
(625,636); (629,636); (634,636); (605,637); (617,637); (627,637); (626,638); (629,638); (636,638); (573,639); (598,639); (632,639);
(623,640); (628,640); (635,640); (505,641); (565,641); (584,641); (633,642); (634,642); (626,643); (628,643); (638,643); (640,643);
(552,644); (585,644); (620,644); (634,645); (636,645); (642,645); (579,646); (604,646); (630,646); (549,647); (580,647); (631,647);
(604,648); (610,648); (646,648); (636,649); (638,649); (645,649); (617,650); (619,650); (635,650); (637,650); (638,651); (643,651);
(649,651); (642,652); (645,652); (635,653); (640,653); (650,653); (645,654); (649,654); (652,654); (640,655); (643,655); (653,655);
(565,656); (609,656); (641,656); (108,657); (161,657); (557,657); (592,657); (466,658); (584,658); (598,659); (627,659); (639,659);
(649,660); (651,660); (654,660); (585,661); (612,661); (644,661); (643,662); (651,662); (655,662); (660,662); (652,663); (654,663);
(631,664); (632,664); (654,665); (660,665); (663,665); (609,666); (620,666); (656,666); (442,667); (466,667); (658,667); (660,668);
(662,668); (665,668); (637,669); (650,669); (612,670); (630,670); (661,670); (632,671); (639,671); (664,671); (68,672); (137,672);
(171,672); (655,673); (662,673); (668,673); (653,674); (655,674); (673,674); (663,675); (665,675); (627,676); (637,676); (659,676);
(669,676); (665,677); (668,677); (675,677); (639,678); (659,678); (671,678); (650,679); (653,679); (669,679); (674,679); (630,680);
(646,680); (670,680); (646,681); (648,681); (680,681); (92,682); (171,682); (515,682); (668,683); (673,683); (677,683); (620,684);
(644,684); (666,684); (673,685); (674,685); (683,685); (675,686); (677,686); (631,687); (647,687); (664,687); (584,688); (641,688);
(658,688); (677,689); (683,689); (686,689); (659,690); (676,690); (678,690); (674,691); (679,691); (685,691); (671,692); (678,692);
(644,693); (661,693); (684,693); (669,694); (679,694); (683,695); (685,695); (689,695); (641,696); (656,696); (688,696); (580,697);
(602,697); (647,697); (664,698); (671,698); (687,698); (692,698); (686,699); (689,699); (669,700); (676,700); (694,700); (685,701);
(691,701); (695,701); (679,702); (691,702); (694,702); (592,703); (602,703); (697,703); (689,704); (695,704); (699,704); (661,705);
(670,705); (693,705); (678,706); (690,706); (692,706); (656,707); (666,707); (696,707); (676,708); (690,708); (700,708); (691,709);
(701,709); (702,709); (695,710); (701,710)].
Definition airfoil_pairs_5 : list (N * N) := [
(704,710); (680,711); (681,711); (699,712); (704,712); (670,713); (680,713); (705,713); (711,713); (53,714); (116,714); (137,714);
(694,715); (702,715); (692,716); (698,716); (706,716); (704,717); (710,717); (712,717); (647,718); (687,718); (697,718); (701,719);
(709,719); (710,719); (694,720); (700,720); (715,720); (690,721); (706,721); (708,721); (702,722); (709,722); (715,722); (666,723);
(684,723); (707,723); (710,724); (717,724); (719,724); (700,725); (708,725); (720,725); (712,726); (717,726); (709,727); (719,727);
(722,727); (715,728); (722,728); (658,729); (688,729); (717,730); (724,730); (726,730); (687,731); (698,731); (716,731); (718,731);
(706,732); (716,732); (721,732); (715,733); (720,733); (728,733); (719,734); (724,734); (727,734); (722,735); (727,735); (728,735);
(684,736); (693,736); (723,736); (708,737); (721,737); (725,737); (716,738); (731,738); (732,738); (724,739); (730,739); (734,739);
(720,740); (725,740); (733,740); (726,741); (730,741); (728,742); (733,742); (735,742); (727,743); (734,743); (735,743); (688,744);
(696,744); (729,744); (730,745); (739,745); (741,745); (693,746); (705,746); (736,746); (735,747); (742,747); (743,747); (734,748);
(739,748); (743,748); (725,749); (737,749); (740,749); (721,750); (732,750); (737,750); (733,751); (740,751); (742,751); (592,752);
(657,752); (703,752); (711,753); (713,753); (739,754); (745,754); (748,754); (696,755); (707,755); (744,755); (741,756); (745,756);
(743,757); (747,757); (748,757); (705,758); (713,758); (746,758); (753,758); (742,759); (747,759); (751,759); (745,760); (754,760);
(756,760); (442,761); (566,761); (667,761); (740,762); (749,762); (751,762); (748,763); (754,763); (757,763); (732,764); (738,764);
(750,764); (747,765); (757,765); (759,765); (737,766); (749,766); (750,766); (754,767); (760,767); (763,767); (756,768); (760,768);
(87,769); (105,769); (624,769); (757,770); (763,770); (765,770); (731,771); (738,771); (764,771); (751,772); (759,772); (762,772);
(760,773); (767,773); (768,773); (707,774); (723,774); (755,774); (658,775); (667,775); (729,775); (763,776); (767,776); (770,776);
(759,777); (765,777); (772,777); (749,778); (762,778); (766,778); (767,779); (773,779); (776,779); (765,780); (770,780); (777,780);
(750,781); (764,781); (766,781); (697,782); (718,782); (768,783); (773,783); (770,784); (776,784); (780,784); (773,785); (779,785);
(783,785); (762,786); (772,786); (778,786); (776,787); (779,787); (784,787); (723,788); (736,788); (774,788); (772,789); (777,789);
(786,789); (779,790); (785,790); (787,790); (777,791); (780,791); (789,791); (766,792); (778,792); (781,792); (780,793); (784,793);
(791,793); (718,794); (731,794); (771,794); (782,794); (783,795); (785,795); (697,796); (703,796); (782,796); (784,797); (787,797);
(790,797); (793,797); (729,798); (744,798); (775,798); (764,799); (771,799); (781,799); (785,800); (790,800); (795,800); (736,801);
(746,801); (788,801); (515,802); (682,802); (778,803); (786,803); (792,803); (753,804); (758,804); (790,805); (797,805); (800,805);
(791,806); (793,806); (746,807); (758,807); (801,807); (804,807); (793,808); (797,808); (805,808); (806,808); (789,809); (791,809);
(806,809); (795,810); (800,810); (744,811); (755,811); (798,811); (800,812); (805,812); (810,812); (786,813); (789,813); (803,813);
(809,813); (781,814); (792,814); (799,814); (792,815); (803,815); (814,815); (805,816); (808,816); (812,816); (566,817); (608,817);
(761,817); (803,818); (813,818); (815,818); (771,819); (794,819); (799,819); (515,820); (557,820); (802,820); (806,821); (808,821);
(816,821); (810,822); (812,822); (806,823); (809,823); (821,823); (812,824); (816,824); (822,824); (557,825); (657,825); (820,825);
(809,826); (813,826); (823,826); (171,827); (672,827); (682,827); (667,828); (761,828); (775,828); (755,829); (774,829); (811,829);
(816,830); (821,830); (824,830); (44,831); (173,831); (813,832); (818,832); (826,832); (703,833); (752,833); (796,833); (821,834);
(823,834); (830,834); (822,835); (824,835); (799,836); (814,836); (819,836); (815,837); (818,837); (832,837); (824,838); (830,838);
(835,838); (823,839); (826,839); (834,839); (774,840); (788,840); (829,840); (814,841); (815,841); (836,841); (837,841); (830,842);
(834,842); (838,842); (826,843); (832,843); (839,843); (804,844); (807,844); (788,845); (801,845); (840,845); (835,846); (838,846);
(834,847); (839,847); (842,847); (832,848)].
Definition airfoil_pairs_6 : list (N * N) := [
(837,848); (843,848); (839,849); (843,849); (847,849); (775,850); (798,850); (828,850); (838,851); (842,851); (846,851); (801,852);
(807,852); (844,852); (845,852); (782,853); (794,853); (843,854); (848,854); (849,854); (842,855); (847,855); (851,855); (837,856);
(841,856); (848,856); (794,857); (819,857); (853,857); (782,858); (796,858); (853,858); (849,859); (854,859); (798,860); (811,860);
(850,860); (847,861); (849,861); (855,861); (859,861); (846,862); (851,862); (657,863); (752,863); (825,863); (851,864); (855,864);
(862,864); (848,865); (854,865); (856,865); (819,866); (836,866); (857,866); (855,867); (861,867); (864,867); (854,868); (859,868);
(865,868); (537,869); (608,869); (817,869); (859,870); (861,870); (867,870); (868,870); (836,871); (841,871); (866,871); (862,872);
(864,872); (841,873); (856,873); (871,873); (864,874); (867,874); (872,874); (811,875); (829,875); (860,875); (856,876); (865,876);
(873,876); (867,877); (870,877); (874,877); (796,878); (833,878); (858,878); (865,879); (868,879); (876,879); (868,880); (870,880);
(877,880); (879,880); (844,881); (852,881); (829,882); (840,882); (875,882); (872,883); (874,883); (853,884); (857,884); (874,885);
(877,885); (883,885); (840,886); (845,886); (882,886); (537,887); (624,887); (869,887); (752,888); (833,888); (863,888); (857,889);
(866,889); (884,889); (845,890); (852,890); (881,890); (886,890); (877,891); (880,891); (885,891); (866,892); (871,892); (889,892);
(879,893); (880,893); (891,893); (853,894); (858,894); (884,894); (876,895); (879,895); (893,895); (883,896); (885,896); (873,897);
(876,897); (895,897); (885,898); (891,898); (896,898); (871,899); (873,899); (892,899); (897,899); (884,900); (889,900); (891,901);
(893,901); (898,901); (761,902); (828,902); (893,903); (895,903); (901,903); (137,904); (672,904); (714,904); (896,905); (898,905);
(828,906); (850,906); (902,906); (889,907); (892,907); (900,907); (858,908); (878,908); (894,908); (850,909); (860,909); (906,909);
(895,910); (897,910); (903,910); (898,911); (901,911); (905,911); (833,912); (878,912); (888,912); (884,913); (894,913); (900,913);
(860,914); (875,914); (909,914); (881,915); (890,915); (901,916); (903,916); (911,916); (897,917); (899,917); (910,917); (892,918);
(899,918); (907,918); (875,919); (882,919); (914,919); (905,920); (911,920); (903,921); (910,921); (916,921); (900,922); (907,922);
(913,922); (882,923); (886,923); (919,923); (886,924); (890,924); (915,924); (923,924); (911,925); (916,925); (920,925); (910,926);
(917,926); (921,926); (899,927); (917,927); (918,927); (105,928); (173,928); (769,928); (916,929); (921,929); (925,929); (917,930);
(926,930); (927,930); (761,931); (817,931); (902,931); (878,932); (908,932); (912,932); (894,933); (908,933); (913,933); (920,934);
(925,934); (921,935); (926,935); (929,935); (907,936); (918,936); (922,936); (926,937); (930,937); (935,937); (925,938); (929,938);
(934,938); (918,939); (927,939); (936,939); (927,940); (930,940); (939,940); (682,941); (802,941); (827,941); (930,942); (937,942);
(940,942); (929,943); (935,943); (938,943); (934,944); (938,944); (935,945); (937,945); (943,945); (913,946); (922,946); (933,946);
(937,947); (942,947); (945,947); (915,948); (924,948); (938,949); (943,949); (944,949); (908,950); (932,950); (933,950); (922,951);
(936,951); (946,951); (936,952); (939,952); (951,952); (940,953); (942,953); (947,953); (939,954); (940,954); (952,954); (953,954);
(943,955); (945,955); (949,955); (863,956); (888,956); (888,957); (912,957); (956,957); (909,958); (914,958); (923,959); (924,959);
(948,959); (820,960); (825,960); (914,961); (919,961); (958,961); (919,962); (923,962); (959,962); (961,962); (944,963); (949,963);
(945,964); (947,964); (955,964); (906,965); (909,965); (958,965); (947,966); (953,966); (964,966); (912,967); (932,967); (957,967);
(949,968); (955,968); (963,968); (624,969); (769,969); (887,969); (953,970); (954,970); (966,970); (933,971); (946,971); (950,971);
(817,972); (869,972); (931,972); (825,973); (863,973); (956,973); (960,973); (952,974); (954,974); (970,974); (955,975); (964,975);
(968,975); (951,976); (952,976); (974,976); (932,977); (950,977); (967,977); (946,978); (951,978); (976,978); (902,979); (906,979);
(965,979); (802,980); (820,980); (941,980); (960,980); (963,981); (968,981); (964,982); (966,982); (975,982); (968,983); (975,983);
(981,983); (966,984); (970,984); (982,984)].
Definition airfoil_pairs_7 : list (N * N) := [
(950,985); (971,985); (977,985); (970,986); (974,986); (984,986); (948,987); (959,987); (946,988); (971,988); (978,988); (975,989);
(982,989); (983,989); (869,990); (887,990); (972,990); (672,991); (827,991); (904,991); (974,992); (976,992); (986,992); (981,993);
(983,993); (902,994); (931,994); (979,994); (982,995); (984,995); (989,995); (976,996); (978,996); (992,996); (983,997); (989,997);
(993,997); (984,998); (986,998); (995,998); (959,999); (962,999); (987,999); (961,1000); (962,1000); (999,1000); (986,1001); (992,1001);
(998,1001); (971,1002); (985,1002); (988,1002); (958,1003); (961,1003); (1000,1003); (989,1004); (995,1004); (997,1004); (978,1005); (988,1005);
(996,1005); (957,1006); (967,1006); (967,1007); (977,1007); (1006,1007); (958,1008); (965,1008); (1003,1008); (993,1009); (997,1009); (992,1010);
(996,1010); (1001,1010); (977,1011); (985,1011); (1007,1011); (985,1012); (1002,1012); (1011,1012); (956,1013); (957,1013); (1006,1013); (995,1014);
(998,1014); (1004,1014); (988,1015); (1002,1015); (1005,1015); (998,1016); (1001,1016); (1014,1016); (997,1017); (1004,1017); (1009,1017); (965,1018);
(979,1018); (1008,1018); (996,1019); (1005,1019); (1010,1019); (1001,1020); (1010,1020); (1016,1020); (1004,1021); (1014,1021); (1017,1021); (987,1022);
(999,1022); (956,1023); (973,1023); (1013,1023); (1010,1024); (1019,1024); (1020,1024); (1009,1025); (1017,1025); (1014,1026); (1016,1026); (1021,1026);
(1002,1027); (1012,1027); (1015,1027); (1005,1028); (1015,1028); (1019,1028); (1016,1029); (1020,1029); (1026,1029); (1017,1030); (1021,1030); (1025,1030);
(1019,1031); (1024,1031); (1028,1031); (1011,1032); (1012,1032); (1027,1032); (1020,1033); (1024,1033); (1029,1033); (1015,1034); (1027,1034); (1028,1034);
(1006,1035); (1007,1035); (999,1036); (1000,1036); (1022,1036); (1007,1037); (1011,1037); (1032,1037); (1035,1037); (979,1038); (994,1038); (1018,1038);
(1021,1039); (1026,1039); (1030,1039); (1024,1040); (1031,1040); (1033,1040); (1006,1041); (1013,1041); (1035,1041); (1000,1042); (1003,1042); (1036,1042);
(1025,1043); (1030,1043); (1026,1044); (1029,1044); (1039,1044); (1028,1045); (1031,1045); (1034,1045); (1029,1046); (1033,1046); (1044,1046); (1030,1047);
(1039,1047); (1043,1047); (931,1048); (972,1048); (994,1048); (1003,1049); (1008,1049); (1042,1049); (1013,1050); (1023,1050); (1041,1050); (1033,1051);
(1040,1051); (1046,1051); (1031,1052); (1040,1052); (1045,1052); (1051,1052); (1027,1053); (1032,1053); (1034,1053); (1039,1054); (1044,1054); (1047,1054);
(1008,1055); (1018,1055); (1049,1055); (960,1056); (973,1056); (1022,1057); (1036,1057); (1043,1058); (1047,1058); (972,1059); (990,1059); (1048,1059);
(1044,1060); (1046,1060); (1054,1060); (887,1061); (969,1061); (990,1061); (1032,1062); (1037,1062); (1053,1062); (1046,1063); (1051,1063); (1060,1063);
(1018,1064); (1038,1064); (1055,1064); (960,1065); (980,1065); (1056,1065); (1047,1066); (1054,1066); (1058,1066); (994,1067); (1038,1067); (1048,1067);
(1035,1068); (1037,1068); (1062,1068); (1051,1069); (1052,1069); (1063,1069); (1035,1070); (1041,1070); (1068,1070); (1045,1071); (1052,1071); (1069,1071);
(1034,1072); (1045,1072); (1053,1072); (1071,1072); (1054,1073); (1060,1073); (1066,1073); (973,1074); (1023,1074); (1056,1074); (1036,1075); (1042,1075);
(1057,1075); (1041,1076); (1050,1076); (1070,1076); (1058,1077); (1066,1077); (769,1078); (928,1078); (969,1078); (1060,1079); (1063,1079); (1073,1079);
(1042,1080); (1049,1080); (1075,1080); (1063,1081); (1069,1081); (1079,1081); (1038,1082); (1064,1082); (1067,1082); (1066,1083); (1073,1083); (1077,1083);
(1023,1084); (1050,1084); (1074,1084); (1076,1084); (1053,1085); (1062,1085); (1072,1085); (941,1086); (980,1086); (1065,1086); (1069,1087); (1071,1087);
(1081,1087); (1049,1088); (1055,1088); (1080,1088); (827,1089); (941,1089); (991,1089); (1086,1089); (1073,1090); (1079,1090); (1083,1090); (1062,1091);
(1068,1091); (1085,1091); (1071,1092); (1072,1092); (1087,1092); (1077,1093); (1083,1093); (1057,1094); (1075,1094); (1055,1095); (1064,1095); (1088,1095);
(1072,1096); (1085,1096); (1092,1096); (1079,1097); (1081,1097); (1090,1097); (1068,1098); (1070,1098); (1091,1098); (1083,1099); (1090,1099); (1093,1099);
(1081,1100); (1087,1100); (1097,1100); (1064,1101); (1082,1101); (1095,1101); (173,1102); (831,1102); (928,1102); (1070,1103); (1076,1103); (1098,1103);
(1085,1104); (1091,1104); (1096,1104); (1067,1105); (1082,1105); (1087,1106); (1092,1106); (1100,1106); (1090,1107); (1097,1107); (1099,1107); (1048,1108);
(1067,1108); (1105,1108); (1075,1109); (1080,1109); (1094,1109); (1048,1110); (1059,1110); (1108,1110); (1093,1111); (1099,1111); (1096,1112); (1104,1112);
(1076,1113); (1084,1113); (1103,1113); (1092,1114); (1096,1114); (1106,1114); (1112,1114); (1097,1115); (1100,1115); (1107,1115); (1099,1116); (1107,1116);
(1111,1116); (1082,1117); (1101,1117); (1105,1117); (1100,1118); (1106,1118); (1115,1118); (1080,1119); (1088,1119); (1109,1119); (1091,1120); (1098,1120);
(1104,1120); (990,1121); (1059,1121); (1061,1121)].
Definition airfoil_pairs_8 : list (N * N) := [
(1074,1122); (1084,1122); (1113,1122); (1056,1123); (1074,1123); (1122,1123); (1106,1124); (1114,1124); (1118,1124); (1107,1125); (1115,1125); (1116,1125);
(1088,1126); (1095,1126); (1119,1126); (1056,1127); (1065,1127); (1123,1127); (1094,1128); (1109,1128); (1111,1129); (1116,1129); (1104,1130); (1112,1130);
(1120,1130); (1112,1131); (1114,1131); (1124,1131); (1130,1131); (1095,1132); (1101,1132); (1126,1132); (1115,1133); (1118,1133); (1125,1133); (1098,1134);
(1103,1134); (1120,1134); (1118,1135); (1124,1135); (1133,1135); (1116,1136); (1125,1136); (1129,1136); (1105,1137); (1108,1137); (1117,1137); (969,1138);
(1061,1138); (1078,1138); (1101,1139); (1117,1139); (1132,1139); (1124,1140); (1131,1140); (1135,1140); (1065,1141); (1086,1141); (1127,1141); (1125,1142);
(1133,1142); (1136,1142); (1108,1143); (1110,1143); (1137,1143); (1103,1144); (1113,1144); (1134,1144); (1130,1145); (1131,1145); (1140,1145); (1109,1146);
(1119,1146); (1128,1146); (1129,1147); (1136,1147); (1117,1148); (1137,1148); (1139,1148); (1133,1149); (1135,1149); (1142,1149); (1135,1150); (1140,1150);
(1149,1150); (1136,1151); (1142,1151); (1147,1151); (1119,1152); (1126,1152); (1146,1152); (1059,1153); (1110,1153); (1121,1153); (1086,1154); (1089,1154);
(1141,1154); (1120,1155); (1130,1155); (1134,1155); (1140,1156); (1145,1156); (1150,1156); (116,1157); (714,1157); (1130,1158); (1145,1158); (1155,1158);
(1156,1158); (1137,1159); (1143,1159); (1148,1159); (1126,1160); (1132,1160); (1152,1160); (1142,1161); (1149,1161); (1151,1161); (1128,1162); (1146,1162);
(1147,1163); (1151,1163); (1122,1164); (1123,1164); (1132,1165); (1139,1165); (1160,1165); (1134,1166); (1144,1166); (1155,1166); (1149,1167); (1150,1167);
(1161,1167); (1110,1168); (1143,1168); (1153,1168); (1139,1169); (1148,1169); (1165,1169); (1151,1170); (1161,1170); (1163,1170); (1113,1171); (1122,1171);
(1144,1171); (1164,1171); (1150,1172); (1156,1172); (1167,1172); (1123,1173); (1127,1173); (1164,1173); (1156,1174); (1158,1174); (1172,1174); (1146,1175);
(1152,1175); (1162,1175); (714,1176); (904,1176); (1157,1176); (1161,1177); (1167,1177); (1170,1177); (1148,1178); (1159,1178); (1169,1178); (1155,1179);
(1158,1179); (1174,1179); (1061,1180); (1121,1180); (1138,1180); (1163,1181); (1170,1181); (1143,1182); (1159,1182); (1168,1182); (1178,1182); (1152,1183);
(1160,1183); (1175,1183); (1167,1184); (1172,1184); (1177,1184); (1170,1185); (1177,1185); (1181,1185); (1144,1186); (1166,1186); (1171,1186); (1155,1187);
(1166,1187); (1179,1187); (904,1188); (991,1188); (1176,1188); (1172,1189); (1174,1189); (1184,1189); (928,1190); (1078,1190); (1102,1190); (1160,1191);
(1165,1191); (1183,1191); (1162,1192); (1175,1192); (1127,1193); (1141,1193); (1173,1193); (1164,1194); (1171,1194); (1177,1195); (1184,1195); (1185,1195);
(1174,1196); (1179,1196); (1189,1196); (1165,1197); (1169,1197); (1191,1197); (1181,1198); (1185,1198); (1169,1199); (1178,1199); (1197,1199); (1166,1200);
(1186,1200); (1187,1200); (1184,1201); (1189,1201); (1195,1201); (1179,1202); (1187,1202); (1196,1202); (1185,1203); (1195,1203); (1198,1203); (1141,1204);
(1154,1204); (1193,1204); (991,1205); (1089,1205); (1188,1205); (1175,1206); (1183,1206); (1192,1206); (1189,1207); (1196,1207); (1201,1207); (1171,1208);
(1186,1208); (1194,1208); (1178,1209); (1182,1209); (1199,1209); (1153,1210); (1168,1210); (1168,1211); (1182,1211); (1209,1211); (1210,1211); (1195,1212);
(1201,1212); (1203,1212); (1121,1213); (1153,1213); (1180,1213); (1210,1213); (1187,1214); (1200,1214); (1202,1214); (1078,1215); (1138,1215); (1190,1215);
(1164,1216); (1173,1216); (1194,1216); (1183,1217); (1191,1217); (1206,1217); (1196,1218); (1202,1218); (1207,1218); (1198,1219); (1203,1219); (1186,1220);
(1200,1220); (1208,1220); (1201,1221); (1207,1221); (1212,1221); (1192,1222); (1206,1222); (1191,1223); (1197,1223); (1217,1223); (1089,1224); (1154,1224);
(1204,1224); (1205,1224); (1203,1225); (1212,1225); (1219,1225); (1202,1226); (1214,1226); (1218,1226); (1207,1227); (1218,1227); (1221,1227); (1197,1228);
(1199,1228); (1223,1228); (1194,1229); (1208,1229); (1216,1229); (1200,1230); (1214,1230); (1220,1230); (1212,1231); (1221,1231); (1225,1231); (1199,1232);
(1209,1232); (1228,1232); (1218,1233); (1226,1233); (1227,1233); (1138,1234); (1180,1234); (1215,1234); (1219,1235); (1225,1235); (1214,1236); (1226,1236);
(1230,1236); (1208,1237); (1220,1237); (1229,1237); (1173,1238); (1193,1238); (1216,1238); (1206,1239); (1217,1239); (1222,1239); (1221,1240); (1227,1240);
(1231,1240); (1226,1241); (1233,1241); (1236,1241); (1209,1242); (1211,1242); (1232,1242); (1225,1243); (1231,1243); (1235,1243); (1227,1244); (1233,1244);
(1240,1244); (1220,1245); (1230,1245); (1237,1245); (1217,1246); (1223,1246); (1239,1246); (1210,1247); (1211,1247); (1242,1247); (1230,1248); (1236,1248);
(1245,1248); (1233,1249); (1241,1249); (1244,1249); (1231,1250); (1240,1250); (1243,1250); (1222,1251); (1239,1251); (1223,1252); (1228,1252); (1246,1252);
(1235,1253); (1243,1253); (1236,1254); (1241,1254); (1248,1254); (1249,1254); (1180,1255); (1213,1255); (1234,1255); (1240,1256); (1244,1256); (1250,1256);
(1228,1257); (1232,1257); (1252,1257); (1216,1258)].
Definition airfoil_pairs_9 : list (N * N) := [
(1229,1258); (1238,1258); (1243,1259); (1250,1259); (1253,1259); (1244,1260); (1249,1260); (1256,1260); (1210,1261); (1213,1261); (1247,1261); (1229,1262);
(1237,1262); (1258,1262); (1232,1263); (1242,1263); (1257,1263); (1193,1264); (1204,1264); (1238,1264); (1237,1265); (1245,1265); (1262,1265); (1249,1266);
(1254,1266); (1260,1266); (1245,1267); (1248,1267); (1265,1267); (1239,1268); (1246,1268); (1251,1268); (1250,1269); (1256,1269); (1259,1269); (1248,1270);
(1254,1270); (1266,1270); (1267,1270); (1253,1271); (1259,1271); (831,1272); (1102,1272); (1242,1273); (1247,1273); (1263,1273); (1246,1274); (1252,1274);
(1268,1274); (1256,1275); (1260,1275); (1269,1275); (1259,1276); (1269,1276); (1271,1276); (1260,1277); (1266,1277); (1275,1277); (1251,1278); (1268,1278);
(1252,1279); (1257,1279); (1274,1279); (1213,1280); (1255,1280); (1261,1280); (1266,1281); (1270,1281); (1277,1281); (1247,1282); (1261,1282); (1273,1282);
(1269,1283); (1275,1283); (1276,1283); (1257,1284); (1263,1284); (1279,1284); (1267,1285); (1270,1285); (1281,1285); (1265,1286); (1267,1286); (1285,1286);
(1271,1287); (1276,1287); (1262,1288); (1265,1288); (1286,1288); (1263,1289); (1273,1289); (1284,1289); (1275,1290); (1277,1290); (1283,1290); (1276,1291);
(1283,1291); (1287,1291); (1268,1292); (1274,1292); (1278,1292); (1258,1293); (1262,1293); (1288,1293); (1277,1294); (1281,1294); (1290,1294); (1261,1295);
(1280,1295); (1282,1295); (1274,1296); (1279,1296); (1292,1296); (1281,1297); (1285,1297); (1294,1297); (1283,1298); (1290,1298); (1291,1298); (1215,1299);
(1234,1299); (1238,1300); (1258,1300); (1293,1300); (1190,1301); (1215,1301); (1299,1301); (1273,1302); (1282,1302); (1289,1302); (1287,1303); (1291,1303);
(1102,1304); (1190,1304); (1272,1304); (1301,1304); (1204,1305); (1224,1305); (1264,1305); (1278,1306); (1292,1306); (1285,1307); (1286,1307); (1297,1307);
(1279,1308); (1284,1308); (1296,1308); (1286,1309); (1288,1309); (1307,1309); (1234,1310); (1255,1310); (1299,1310); (1205,1311); (1224,1311); (1305,1311);
(1290,1312); (1294,1312); (1298,1312); (1291,1313); (1298,1313); (1303,1313); (1284,1314); (1289,1314); (1308,1314); (1294,1315); (1297,1315); (1312,1315);
(1238,1316); (1264,1316); (1300,1316); (1288,1317); (1293,1317); (1309,1317); (1188,1318); (1205,1318); (1311,1318); (1255,1319); (1280,1319); (1310,1319);
(1282,1320); (1295,1320); (1302,1320); (1289,1321); (1302,1321); (1314,1321); (1280,1322); (1295,1322); (1319,1322); (1295,1323); (1320,1323); (1322,1323);
(1298,1324); (1312,1324); (1313,1324); (1292,1325); (1296,1325); (1306,1325); (1297,1326); (1307,1326); (1315,1326); (1303,1327); (1313,1327); (1293,1328);
(1300,1328); (1317,1328); (1302,1329); (1320,1329); (1321,1329); (1307,1330); (1309,1330); (1326,1330); (1296,1331); (1308,1331); (1325,1331); (1312,1332);
(1315,1332); (1324,1332); (1309,1333); (1317,1333); (1330,1333); (1313,1334); (1324,1334); (1327,1334); (1315,1335); (1326,1335); (1332,1335); (1306,1336);
(1325,1336); (1308,1337); (1314,1337); (1331,1337); (1264,1338); (1305,1338); (1316,1338); (1317,1339); (1328,1339); (1333,1339); (1320,1340); (1323,1340);
(1329,1340); (1300,1341); (1316,1341); (1328,1341); (1321,1342); (1329,1342); (1324,1343); (1332,1343); (1334,1343); (1314,1344); (1321,1344); (1337,1344);
(1342,1344); (1326,1345); (1330,1345); (1335,1345); (1327,1346); (1334,1346); (1322,1347); (1323,1347); (1340,1347); (1329,1348); (1340,1348); (1342,1348);
(1328,1349); (1339,1349); (1341,1349); (1176,1350); (1188,1350); (1318,1350); (1330,1351); (1333,1351); (1345,1351); (1325,1352); (1331,1352); (1336,1352);
(1332,1353); (1335,1353); (1343,1353); (1334,1354); (1343,1354); (1346,1354); (1333,1355); (1339,1355); (1351,1355); (1299,1356); (1310,1356); (1316,1357);
(1338,1357); (1341,1357); (1335,1358); (1345,1358); (1353,1358); (1331,1359); (1337,1359); (1352,1359); (1319,1360); (1322,1360); (1347,1360); (1310,1361);
(1319,1361); (1356,1361); (1360,1361); (1339,1362); (1349,1362); (1355,1362); (1343,1363); (1353,1363); (1354,1363); (1305,1364); (1338,1364); (1342,1365);
(1348,1365); (1340,1366); (1347,1366); (1348,1366); (1365,1366); (1345,1367); (1351,1367); (1358,1367); (1346,1368); (1354,1368); (1336,1369); (1352,1369);
(1337,1370); (1344,1370); (1359,1370); (1341,1371); (1349,1371); (1362,1371); (1342,1372); (1344,1372); (1365,1372); (1370,1372); (1354,1373); (1363,1373);
(1368,1373); (1353,1374); (1358,1374); (1363,1374); (1351,1375); (1355,1375); (1367,1375); (1341,1376); (1357,1376); (1371,1376); (1305,1377); (1311,1377);
(1364,1377); (1355,1378); (1362,1378); (1375,1378); (1299,1379); (1301,1379); (1356,1379); (1358,1380); (1367,1380); (1374,1380); (1352,1381); (1359,1381);
(1369,1381); (1363,1382); (1373,1382); (1374,1382); (1362,1383); (1371,1383); (1378,1383); (1368,1384); (1373,1384); (1367,1385); (1375,1385); (1380,1385);
(1338,1386); (1357,1386); (1364,1386); (1359,1387); (1370,1387); (1381,1387); (1347,1388); (1360,1388); (1366,1388); (1371,1389); (1376,1389); (1383,1389);
(1365,1390); (1366,1390); (1388,1390); (1373,1391); (1382,1391); (1384,1391); (1374,1392); (1380,1392); (1382,1392); (1357,1393); (1376,1393); (1386,1393);
(1369,1394); (1381,1394); (1375,1395); (1378,1395)].
Definition airfoil_pairs_10 : list (N * N) := [
(1385,1395); (1356,1396); (1361,1396); (1379,1396); (1370,1397); (1372,1397); (1387,1397); (1311,1398); (1318,1398); (1377,1398); (1365,1399); (1372,1399);
(1390,1399); (1397,1399); (1360,1400); (1361,1400); (1388,1400); (1396,1400); (1378,1401); (1383,1401); (1395,1401); (1376,1402); (1389,1402); (1393,1402);
(1380,1403); (1385,1403); (1392,1403); (1382,1404); (1391,1404); (1392,1404); (1383,1405); (1389,1405); (1401,1405); (1301,1406); (1304,1406); (1379,1406);
(1364,1407); (1377,1407); (1386,1407); (1384,1408); (1391,1408); (1157,1409); (1176,1409); (1350,1409); (1385,1410); (1395,1410); (1403,1410); (1381,1411);
(1387,1411); (1394,1411); (1389,1412); (1402,1412); (1405,1412); (1391,1413); (1404,1413); (1408,1413); (1386,1414); (1393,1414); (1392,1415); (1403,1415);
(1404,1415); (1393,1416); (1402,1416); (1412,1416); (1414,1416); (1395,1417); (1401,1417); (1410,1417); (1401,1418); (1405,1418); (1417,1418); (1387,1419);
(1397,1419); (1411,1419); (1403,1420); (1410,1420); (1415,1420); (1394,1421); (1411,1421); (1405,1422); (1412,1422); (1418,1422); (1397,1423); (1399,1423);
(1419,1423); (1318,1424); (1350,1424); (1398,1424); (1404,1425); (1413,1425); (1415,1425); (1408,1426); (1413,1426); (1390,1427); (1399,1427); (1423,1427);
(1412,1428); (1416,1428); (1422,1428); (1272,1429); (1304,1429); (1406,1429); (1386,1430); (1407,1430); (1414,1430); (1410,1431); (1417,1431); (1420,1431);
(1414,1432); (1416,1432); (1428,1432); (1388,1433); (1390,1433); (1427,1433); (1377,1434); (1398,1434); (1407,1434); (1413,1435); (1425,1435); (1426,1435);
(1415,1436); (1420,1436); (1425,1436); (1417,1437); (1418,1437); (1431,1437); (1388,1438); (1400,1438); (1433,1438); (1411,1439); (1419,1439); (1421,1439);
(1418,1440); (1422,1440); (1437,1440); (1420,1441); (1431,1441); (1436,1441); (1422,1442); (1428,1442); (1440,1442); (1396,1443); (1400,1443); (1438,1443);
(1425,1444); (1435,1444); (1436,1444); (1419,1445); (1423,1445); (1439,1445); (1428,1446); (1432,1446); (1442,1446); (1414,1447); (1430,1447); (1432,1447);
(1446,1447); (1426,1448); (1435,1448); (1272,1449); (1429,1449); (1431,1450); (1437,1450); (1441,1450); (1421,1451); (1439,1451); (1407,1452); (1430,1452);
(1434,1452); (1423,1453); (1427,1453); (1445,1453); (1435,1454); (1444,1454); (1448,1454); (1436,1455); (1441,1455); (1444,1455); (1437,1456); (1440,1456);
(1450,1456); (1440,1457); (1442,1457); (1456,1457); (1427,1458); (1433,1458); (1453,1458); (1441,1459); (1450,1459); (1455,1459); (1379,1460); (1396,1460);
(1406,1460); (1443,1460); (1442,1461); (1446,1461); (1457,1461); (1157,1462); (1409,1462); (1439,1463); (1445,1463); (1451,1463); (1444,1464); (1454,1464);
(1455,1464); (1448,1465); (1454,1465); (1446,1466); (1447,1466); (1461,1466); (1430,1467); (1447,1467); (1452,1467); (1466,1467); (1450,1468); (1456,1468);
(1459,1468); (1398,1469); (1424,1469); (1434,1469); (1445,1470); (1453,1470); (1463,1470); (1454,1471); (1464,1471); (1465,1471); (1433,1472); (1438,1472);
(1458,1472); (1451,1473); (1463,1473); (1455,1474); (1459,1474); (1464,1474); (1456,1475); (1457,1475); (1468,1475); (1457,1476); (1461,1476); (1475,1476);
(1459,1477); (1468,1477); (1474,1477); (1453,1478); (1458,1478); (1470,1478); (1350,1479); (1409,1479); (1424,1479); (1461,1480); (1466,1480); (1476,1480);
(1464,1481); (1471,1481); (1474,1481); (1465,1482); (1471,1482); (1466,1483); (1467,1483); (1480,1483); (1463,1484); (1470,1484); (1473,1484); (1468,1485);
(1475,1485); (1477,1485); (1434,1486); (1452,1486); (1469,1486); (1438,1487); (1443,1487); (1472,1487); (1471,1488); (1481,1488); (1482,1488); (1452,1489);
(1467,1489); (1483,1489); (1486,1489); (1458,1490); (1472,1490); (1478,1490); (1474,1491); (1477,1491); (1481,1491); (1406,1492); (1429,1492); (1460,1492);
(1476,1493); (1480,1493); (1475,1494); (1476,1494); (1485,1494); (1493,1494); (1470,1495); (1478,1495); (1484,1495); (1473,1496); (1484,1496); (1477,1497);
(1485,1497); (1491,1497); (1480,1498); (1483,1498); (1493,1498); (1481,1499); (1488,1499); (1491,1499); (1482,1500); (1488,1500); (1485,1501); (1494,1501);
(1497,1501); (1478,1502); (1490,1502); (1495,1502); (1472,1503); (1487,1503); (1490,1503); (1488,1504); (1499,1504); (1500,1504); (1484,1505); (1495,1505);
(1496,1505); (1491,1506); (1497,1506); (1499,1506); (1483,1507); (1489,1507); (1498,1507); (1493,1508); (1494,1508); (1501,1508); (1443,1509); (1460,1509);
(1487,1509); (1424,1510); (1469,1510); (1479,1510); (1497,1511); (1501,1511); (1506,1511); (1493,1512); (1498,1512); (1507,1512); (1508,1512); (1409,1513);
(1462,1513); (1479,1513); (1496,1514); (1505,1514); (1490,1515); (1502,1515); (1503,1515); (1499,1516); (1504,1516); (1506,1516); (1495,1517); (1502,1517);
(1505,1517); (1500,1518); (1504,1518); (1501,1519); (1508,1519); (1511,1519); (1504,1520); (1516,1520); (1518,1520); (1429,1521); (1449,1521); (1492,1521);
(1508,1522); (1512,1522); (1519,1522); (1506,1523); (1511,1523); (1516,1523); (1502,1524); (1515,1524); (1517,1524); (1505,1525); (1514,1525); (1517,1525);
(1487,1526); (1503,1526); (1509,1526); (1486,1527); (1489,1527); (1507,1527); (1511,1528); (1519,1528); (1523,1528); (1503,1529); (1515,1529); (1526,1529);
(1507,1530); (1512,1530); (1527,1530); (1518,1531)].
Definition airfoil_pairs_11 : list (N * N) := [
(1520,1531); (1516,1532); (1520,1532); (1523,1532); (1514,1533); (1525,1533); (1519,1534); (1522,1534); (1528,1534); (1460,1535); (1492,1535); (1509,1535);
(1517,1536); (1524,1536); (1525,1536); (1469,1537); (1486,1537); (1527,1537); (1479,1538); (1510,1538); (1515,1539); (1524,1539); (1529,1539); (1512,1540);
(1522,1540); (1530,1540); (1534,1540); (1520,1541); (1531,1541); (1532,1541); (1523,1542); (1528,1542); (1532,1542); (1525,1543); (1533,1543); (1536,1543);
(1524,1544); (1536,1544); (1539,1544); (1528,1545); (1534,1545); (1542,1545); (1469,1546); (1510,1546); (1537,1546); (1531,1547); (1541,1547); (1529,1548);
(1539,1548); (1479,1549); (1513,1549); (1538,1549); (1532,1550); (1541,1550); (1542,1550); (1526,1551); (1529,1551); (1548,1551); (1533,1552); (1543,1552);
(1534,1553); (1540,1553); (1545,1553); (1536,1554); (1543,1554); (1544,1554); (1539,1555); (1544,1555); (1548,1555); (1541,1556); (1547,1556); (1550,1556);
(1530,1557); (1540,1557); (1553,1557); (1509,1558); (1526,1558); (1551,1558); (1542,1559); (1545,1559); (1550,1559); (1510,1560); (1538,1560); (1546,1560);
(1543,1561); (1552,1561); (1554,1561); (1544,1562); (1554,1562); (1555,1562); (1527,1563); (1530,1563); (1557,1563); (1547,1564); (1556,1564); (1548,1565);
(1555,1565); (1492,1566); (1521,1566); (1535,1566); (1548,1567); (1551,1567); (1565,1567); (1550,1568); (1556,1568); (1559,1568); (1552,1569); (1561,1569);
(1545,1570); (1553,1570); (1559,1570); (1527,1571); (1537,1571); (1563,1571); (1554,1572); (1561,1572); (1562,1572); (1462,1573); (1513,1573); (1509,1574);
(1535,1574); (1558,1574); (1555,1575); (1562,1575); (1565,1575); (1537,1576); (1546,1576); (1571,1576); (1556,1577); (1564,1577); (1568,1577); (1538,1578);
(1549,1578); (1560,1578); (1561,1579); (1569,1579); (1572,1579); (1562,1580); (1572,1580); (1575,1580); (1449,1581); (1521,1581); (1559,1582); (1568,1582);
(1570,1582); (1553,1583); (1557,1583); (1570,1583); (1513,1584); (1549,1584); (1573,1584); (1546,1585); (1560,1585); (1576,1585); (1551,1586); (1558,1586);
(1567,1586); (1565,1587); (1567,1587); (1586,1587); (1565,1588); (1575,1588); (1587,1588); (1564,1589); (1577,1589); (1569,1590); (1579,1590); (1572,1591);
(1579,1591); (1580,1591); (1568,1592); (1577,1592); (1582,1592); (1575,1593); (1580,1593); (1588,1593); (1535,1594); (1566,1594); (1574,1594); (1558,1595);
(1574,1595); (1586,1595); (1577,1596); (1589,1596); (1592,1596); (1570,1597); (1582,1597); (1583,1597); (1557,1598); (1563,1598); (1583,1598); (1579,1599);
(1590,1599); (1591,1599); (1563,1600); (1571,1600); (1598,1600); (1580,1601); (1591,1601); (1593,1601); (1587,1602); (1588,1602); (1560,1603); (1578,1603);
(1585,1603); (1576,1604); (1585,1604); (1588,1605); (1593,1605); (1602,1605); (1590,1606); (1599,1606); (1589,1607); (1596,1607); (1582,1608); (1592,1608);
(1597,1608); (1591,1609); (1599,1609); (1601,1609); (1571,1610); (1576,1610); (1600,1610); (1604,1610); (1586,1611); (1587,1611); (1602,1611); (1593,1612);
(1601,1612); (1605,1612); (1592,1613); (1596,1613); (1608,1613); (1549,1614); (1578,1614); (1584,1614); (1586,1615); (1595,1615); (1611,1615); (1574,1616);
(1594,1616); (1595,1616); (1599,1617); (1606,1617); (1609,1617); (1601,1618); (1609,1618); (1612,1618); (1596,1619); (1607,1619); (1613,1619); (1602,1620);
(1605,1620); (1583,1621); (1597,1621); (1598,1621); (1521,1622); (1566,1622); (1581,1622); (1605,1623); (1612,1623); (1620,1623); (1606,1624); (1617,1624);
(1602,1625); (1611,1625); (1620,1625); (1609,1626); (1617,1626); (1618,1626); (1597,1627); (1608,1627); (1621,1627); (1611,1628); (1615,1628); (1625,1628);
(1607,1629); (1619,1629); (1612,1630); (1618,1630); (1623,1630); (1595,1631); (1615,1631); (1616,1631); (1608,1632); (1613,1632); (1627,1632); (1585,1633);
(1603,1633); (1604,1633); (1600,1634); (1610,1634); (1617,1635); (1624,1635); (1626,1635); (1613,1636); (1619,1636); (1632,1636); (1615,1637); (1628,1637);
(1631,1637); (1618,1638); (1626,1638); (1630,1638); (1598,1639); (1600,1639); (1621,1639); (1634,1639); (1620,1640); (1623,1640); (1625,1641); (1628,1641);
(1619,1642); (1629,1642); (1636,1642); (1623,1643); (1630,1643); (1640,1643); (1620,1644); (1625,1644); (1640,1644); (1641,1644); (1578,1645); (1603,1645);
(1614,1645); (1624,1646); (1635,1646); (1566,1647); (1594,1647); (1622,1647); (1626,1648); (1635,1648); (1638,1648); (1628,1649); (1637,1649); (1641,1649);
(1630,1650); (1638,1650); (1643,1650); (1629,1651); (1642,1651); (1641,1652); (1644,1652); (1627,1653); (1632,1653); (1604,1654); (1610,1654); (1633,1654);
(1634,1654); (1594,1655); (1616,1655); (1647,1655); (1631,1656); (1637,1656); (1649,1656); (1635,1657); (1646,1657); (1648,1657); (1638,1658); (1648,1658);
(1650,1658); (1640,1659); (1644,1659); (1652,1659); (1640,1660); (1643,1660); (1659,1660); (1632,1661); (1636,1661); (1653,1661); (1573,1662); (1584,1662);
(1636,1663); (1642,1663); (1661,1663); (1621,1664); (1627,1664); (1653,1664); (1643,1665); (1650,1665); (1660,1665); (1646,1666); (1657,1666); (1621,1667);
(1639,1667); (1664,1667); (1641,1668); (1649,1668); (1652,1668); (1642,1669); (1651,1669); (1663,1669); (1616,1670); (1631,1670); (1655,1670); (1652,1671);
(1659,1671); (1668,1671); (1648,1672); (1657,1672)].
Definition airfoil_pairs_12 : list (N * N) := [
(1658,1672); (1650,1673); (1658,1673); (1665,1673); (1649,1674); (1656,1674); (1668,1674); (1603,1675); (1633,1675); (1645,1675); (1631,1676); (1656,1676);
(1670,1676); (1674,1676); (1653,1677); (1661,1677); (1659,1678); (1660,1678); (1671,1678); (1651,1679); (1669,1679); (1657,1680); (1666,1680); (1672,1680);
(1660,1681); (1665,1681); (1678,1681); (1658,1682); (1672,1682); (1673,1682); (1634,1683); (1639,1683); (1667,1683); (1661,1684); (1663,1684); (1677,1684);
(1668,1685); (1671,1685); (1678,1685); (1665,1686); (1673,1686); (1681,1686); (1666,1687); (1680,1687); (1663,1688); (1669,1688); (1684,1688); (1584,1689);
(1614,1689); (1662,1689); (1653,1690); (1664,1690); (1677,1690); (1672,1691); (1680,1691); (1682,1691); (1669,1692); (1679,1692); (1688,1692); (1673,1693);
(1682,1693); (1686,1693); (1668,1694); (1674,1694); (1685,1694); (1664,1695); (1667,1695); (1690,1695); (1678,1696); (1681,1696); (1685,1696); (1677,1697);
(1684,1697); (1680,1698); (1687,1698); (1691,1698); (1633,1699); (1654,1699); (1675,1699); (1682,1700); (1691,1700); (1693,1700); (1679,1701); (1692,1701);
(1681,1702); (1686,1702); (1696,1702); (1677,1703); (1690,1703); (1697,1703); (1687,1704); (1698,1704); (1684,1705); (1688,1705); (1697,1705); (1686,1706);
(1693,1706); (1702,1706); (1674,1707); (1676,1707); (1694,1707); (1685,1708); (1694,1708); (1696,1708); (1691,1709); (1698,1709); (1700,1709); (1688,1710);
(1692,1710); (1705,1710); (1634,1711); (1654,1711); (1683,1711); (1699,1711); (1693,1712); (1700,1712); (1706,1712); (1692,1713); (1701,1713); (1710,1713);
(1667,1714); (1683,1714); (1695,1714); (1670,1715); (1676,1715); (1707,1715); (1690,1716); (1695,1716); (1703,1716); (1698,1717); (1704,1717); (1709,1717);
(1696,1718); (1702,1718); (1708,1718); (1697,1719); (1703,1719); (1705,1719); (1700,1720); (1709,1720); (1712,1720); (1701,1721); (1713,1721); (1704,1722);
(1717,1722); (1614,1723); (1645,1723); (1689,1723); (1655,1724); (1670,1724); (1715,1724); (1702,1725); (1706,1725); (1718,1725); (1706,1726); (1712,1726);
(1725,1726); (1705,1727); (1710,1727); (1719,1727); (1709,1728); (1717,1728); (1720,1728); (1647,1729); (1655,1729); (1724,1729); (1675,1730); (1699,1730);
(1710,1731); (1713,1731); (1727,1731); (1712,1732); (1720,1732); (1726,1732); (1645,1733); (1675,1733); (1723,1733); (1730,1733); (1713,1734); (1721,1734);
(1731,1734); (1703,1735); (1716,1735); (1719,1735); (1717,1736); (1722,1736); (1728,1736); (1694,1737); (1707,1737); (1708,1737); (1581,1738); (1622,1738);
(1720,1739); (1728,1739); (1732,1739); (1708,1740); (1718,1740); (1737,1740); (1622,1741); (1647,1741); (1729,1741); (1738,1741); (1722,1742); (1736,1742);
(1719,1743); (1727,1743); (1735,1743); (1718,1744); (1725,1744); (1740,1744); (1726,1745); (1732,1745); (1721,1746); (1734,1746); (1725,1747); (1726,1747);
(1744,1747); (1745,1747); (1728,1748); (1736,1748); (1739,1748); (1695,1749); (1714,1749); (1716,1749); (1683,1750); (1711,1750); (1714,1750); (1727,1751);
(1731,1751); (1743,1751); (1732,1752); (1739,1752); (1745,1752); (1731,1753); (1734,1753); (1751,1753); (1707,1754); (1715,1754); (1737,1754); (1736,1755);
(1742,1755); (1748,1755); (1699,1756); (1711,1756); (1730,1756); (1739,1757); (1748,1757); (1752,1757); (1716,1758); (1735,1758); (1749,1758); (1734,1759);
(1746,1759); (1753,1759); (1742,1760); (1755,1760); (1662,1761); (1689,1761); (1745,1762); (1752,1762); (1745,1763); (1747,1763); (1762,1763); (1748,1764);
(1755,1764); (1757,1764); (1735,1765); (1743,1765); (1758,1765); (1746,1766); (1759,1766); (1743,1767); (1751,1767); (1765,1767); (1744,1768); (1747,1768);
(1763,1768); (1752,1769); (1757,1769); (1762,1769); (1740,1770); (1744,1770); (1768,1770); (1737,1771); (1740,1771); (1770,1771); (1755,1772); (1760,1772);
(1764,1772); (1715,1773); (1724,1773); (1754,1773); (1751,1774); (1753,1774); (1767,1774); (1757,1775); (1764,1775); (1769,1775); (1753,1776); (1759,1776);
(1774,1776); (1760,1777); (1772,1777); (1762,1778); (1763,1778); (1759,1779); (1766,1779); (1776,1779); (1737,1780); (1754,1780); (1771,1780); (1762,1781);
(1769,1781); (1778,1781); (1714,1782); (1749,1782); (1750,1782); (1764,1783); (1772,1783); (1775,1783); (1749,1784); (1758,1784); (1782,1784); (1763,1785);
(1768,1785); (1778,1785); (1758,1786); (1765,1786); (1784,1786); (1730,1787); (1733,1787); (1756,1787); (1769,1788); (1775,1788); (1781,1788); (1768,1789);
(1770,1789); (1785,1789); (1766,1790); (1779,1790); (1772,1791); (1777,1791); (1783,1791); (1765,1792); (1767,1792); (1786,1792); (1770,1793); (1771,1793);
(1789,1793); (1775,1794); (1783,1794); (1788,1794); (1767,1795); (1774,1795); (1792,1795); (1777,1796); (1791,1796); (1778,1797); (1781,1797); (1778,1798);
(1785,1798); (1797,1798); (1774,1799); (1776,1799); (1795,1799); (1776,1800); (1779,1800); (1799,1800); (1711,1801); (1750,1801); (1756,1801); (1771,1802);
(1780,1802); (1793,1802); (1754,1803); (1773,1803); (1780,1803); (1781,1804); (1788,1804); (1797,1804); (1779,1805); (1790,1805); (1800,1805); (1783,1806);
(1791,1806); (1794,1806); (1785,1807); (1789,1807); (1798,1807); (1788,1808); (1794,1808); (1804,1808); (1723,1809); (1733,1809); (1787,1809); (1790,1810);
(1805,1810); (1791,1811); (1796,1811); (1806,1811)].
Definition airfoil_pairs_13 : list (N * N) := [
(1789,1812); (1793,1812); (1807,1812); (1794,1813); (1806,1813); (1808,1813); (1786,1814); (1792,1814); (1724,1815); (1729,1815); (1773,1815); (1689,1816);
(1723,1816); (1761,1816); (1797,1817); (1798,1817); (1807,1817); (1796,1818); (1811,1818); (1793,1819); (1802,1819); (1812,1819); (1797,1820); (1804,1820);
(1817,1820); (1806,1821); (1811,1821); (1813,1821); (1800,1822); (1805,1822); (1805,1823); (1810,1823); (1822,1823); (1780,1824); (1802,1824); (1803,1824);
(1804,1825); (1808,1825); (1820,1825); (1799,1826); (1800,1826); (1822,1826); (1795,1827); (1799,1827); (1826,1827); (1792,1828); (1795,1828); (1814,1828);
(1827,1828); (1784,1829); (1786,1829); (1814,1829); (1808,1830); (1813,1830); (1825,1830); (1811,1831); (1818,1831); (1821,1831); (1810,1832); (1823,1832);
(1807,1833); (1812,1833); (1817,1833); (1813,1834); (1821,1834); (1830,1834); (1818,1835); (1831,1835); (1756,1836); (1787,1836); (1801,1836); (1782,1837);
(1784,1837); (1829,1837); (1817,1838); (1820,1838); (1833,1838); (1822,1839); (1823,1839); (1821,1840); (1831,1840); (1834,1840); (1823,1841); (1832,1841);
(1839,1841); (1812,1842); (1819,1842); (1833,1842); (1825,1843); (1830,1843); (1822,1844); (1826,1844); (1839,1844); (1820,1845); (1825,1845); (1838,1845);
(1843,1845); (1814,1846); (1828,1846); (1829,1846); (1830,1847); (1834,1847); (1843,1847); (1750,1848); (1782,1848); (1801,1848); (1837,1848); (1831,1849);
(1835,1849); (1840,1849); (1802,1850); (1819,1850); (1824,1850); (1842,1850); (1826,1851); (1827,1851); (1844,1851); (1832,1852); (1841,1852); (1834,1853);
(1840,1853); (1847,1853); (1835,1854); (1849,1854); (1843,1855); (1847,1855); (1839,1856); (1841,1856); (1729,1857); (1741,1857); (1815,1857); (1827,1858);
(1828,1858); (1846,1858); (1851,1858); (1839,1859); (1844,1859); (1856,1859); (1840,1860); (1849,1860); (1853,1860); (1841,1861); (1852,1861); (1856,1861);
(1843,1862); (1845,1862); (1855,1862); (1847,1863); (1853,1863); (1855,1863); (1852,1864); (1861,1864); (1849,1865); (1854,1865); (1860,1865); (1829,1866);
(1837,1866); (1846,1866); (1844,1867); (1851,1867); (1859,1867); (1855,1868); (1862,1868); (1863,1868); (1838,1869); (1845,1869); (1862,1869); (1853,1870);
(1860,1870); (1863,1870); (1833,1871); (1838,1871); (1869,1871); (1854,1872); (1865,1872); (1856,1873); (1859,1873); (1867,1873); (1856,1874); (1861,1874);
(1873,1874); (1773,1875); (1803,1875); (1815,1875); (1833,1876); (1842,1876); (1871,1876); (1787,1877); (1809,1877); (1836,1877); (1861,1878); (1864,1878);
(1874,1878); (1860,1879); (1865,1879); (1870,1879); (1863,1880); (1868,1880); (1870,1880); (1864,1881); (1878,1881); (1862,1882); (1868,1882); (1851,1883);
(1858,1883); (1867,1883); (1803,1884); (1824,1884); (1850,1884); (1875,1884); (1865,1885); (1872,1885); (1879,1885); (1868,1886); (1880,1886); (1882,1886);
(1862,1887); (1869,1887); (1882,1887); (1801,1888); (1836,1888); (1848,1888); (1846,1889); (1858,1889); (1866,1889); (1870,1890); (1879,1890); (1880,1890);
(1867,1891); (1873,1891); (1883,1891); (1878,1892); (1881,1892); (1872,1893); (1885,1893); (1873,1894); (1874,1894); (1891,1894); (1874,1895); (1878,1895);
(1892,1895); (1894,1895); (1881,1896); (1892,1896); (1869,1897); (1871,1897); (1887,1897); (1879,1898); (1885,1898); (1890,1898); (1880,1899); (1886,1899);
(1890,1899); (1892,1900); (1896,1900); (1882,1901); (1886,1901); (1887,1901); (1896,1902); (1900,1902); (1842,1903); (1850,1903); (1876,1903); (1892,1904);
(1895,1904); (1900,1904); (1871,1905); (1876,1905); (1897,1905); (1885,1906); (1893,1906); (1898,1906); (1900,1907); (1902,1907); (1904,1907); (1908,1909);
(1902,1910); (1907,1910); (1890,1911); (1898,1911); (1899,1911); (1908,1912); (1910,1912); (1909,1913); (1893,1914); (1906,1914); (1858,1915); (1883,1915);
(1889,1915); (1913,1916); (1894,1917); (1895,1917); (1904,1917); (1886,1918); (1899,1918); (1901,1918); (1916,1919); (1887,1920); (1897,1920); (1901,1920);
(1909,1921); (1913,1921); (1913,1922); (1916,1922); (1921,1922); (1908,1923); (1909,1923); (1921,1923); (1919,1924); (1891,1925); (1894,1925); (1917,1925);
(1883,1926); (1891,1926); (1915,1926); (1925,1926); (1916,1927); (1919,1927); (1922,1927); (1898,1928); (1906,1928); (1911,1928); (1904,1929); (1907,1929);
(1908,1930); (1912,1930); (1923,1930); (1738,1931); (1741,1931); (1857,1931); (1907,1932); (1910,1932); (1929,1932); (1910,1933); (1912,1933); (1930,1933);
(1932,1933); (1919,1934); (1924,1934); (1927,1934); (1924,1935); (1921,1936); (1922,1936); (1922,1937); (1927,1937); (1936,1937); (1921,1938); (1923,1938);
(1936,1938); (1876,1939); (1903,1939); (1905,1939); (1924,1940); (1934,1940); (1935,1940); (1927,1941); (1934,1941); (1937,1941); (1935,1942); (1904,1943);
(1917,1943); (1929,1943); (1899,1944); (1911,1944); (1918,1944); (1936,1945); (1937,1945); (1938,1945); (1934,1946); (1940,1946); (1941,1946); (1897,1947);
(1905,1947); (1920,1947); (1923,1948); (1930,1948); (1938,1948); (1935,1949); (1940,1949); (1942,1949); (1937,1950); (1941,1950); (1945,1950); (1837,1951);
(1848,1951); (1866,1951); (1906,1952); (1914,1952); (1928,1952); (1942,1953); (1940,1954); (1946,1954); (1949,1954); (1941,1955); (1946,1955); (1950,1955);
(1942,1956); (1949,1956); (1953,1956); (1723,1957)].
Definition airfoil_pairs_14 : list (N * N) := [
(1809,1957); (1816,1957); (1946,1958); (1954,1958); (1955,1958); (1930,1959); (1933,1959); (1948,1959); (1949,1960); (1954,1960); (1956,1960); (1938,1961);
(1945,1961); (1948,1961); (1953,1962); (1914,1963); (1952,1963); (1950,1964); (1955,1964); (1945,1965); (1950,1965); (1961,1965); (1964,1965); (1954,1966);
(1958,1966); (1960,1966); (1953,1967); (1956,1967); (1962,1967); (1911,1968); (1928,1968); (1944,1968); (1955,1969); (1958,1969); (1964,1969); (1850,1970);
(1884,1970); (1903,1970); (1901,1971); (1918,1971); (1920,1971); (1956,1972); (1960,1972); (1967,1972); (1929,1973); (1932,1973); (1943,1973); (1958,1974);
(1966,1974); (1969,1974); (1932,1975); (1933,1975); (1959,1975); (1973,1975); (1960,1976); (1966,1976); (1972,1976); (1962,1977); (1917,1978); (1925,1978);
(1943,1978); (1962,1979); (1967,1979); (1977,1979); (1966,1980); (1974,1980); (1976,1980); (1948,1981); (1959,1981); (1961,1981); (1905,1982); (1939,1982);
(1947,1982); (1967,1983); (1972,1983); (1979,1983); (1972,1984); (1976,1984); (1983,1984); (1969,1985); (1974,1985); (1980,1985); (1964,1986); (1965,1986);
(1969,1986); (1985,1986); (1928,1987); (1952,1987); (1968,1987); (1976,1988); (1980,1988); (1984,1988); (1977,1989); (1977,1990); (1979,1990); (1989,1990);
(1961,1991); (1965,1991); (1981,1991); (1986,1991); (1979,1992); (1983,1992); (1990,1992); (1983,1993); (1984,1993); (1992,1993); (1980,1994); (1985,1994);
(1988,1994); (1959,1995); (1975,1995); (1981,1995); (1836,1996); (1877,1996); (1888,1996); (1984,1997); (1988,1997); (1993,1997); (1866,1998); (1889,1998);
(1951,1998); (1989,1999); (1985,2000); (1986,2000); (1994,2000); (1988,2001); (1994,2001); (1997,2001); (1989,2002); (1990,2002); (1999,2002); (1990,2003);
(1992,2003); (2002,2003); (1920,2004); (1947,2004); (1971,2004); (1992,2005); (1993,2005); (2003,2005); (1952,2006); (1963,2006); (1987,2006); (1981,2007);
(1991,2007); (1995,2007); (1943,2008); (1973,2008); (1978,2008); (1993,2009); (1997,2009); (2005,2009); (1973,2010); (1975,2010); (2008,2010); (1986,2011);
(1991,2011); (2000,2011); (1994,2012); (2000,2012); (2001,2012); (1997,2013); (2001,2013); (2009,2013); (1975,2014); (1995,2014); (2010,2014); (1999,2015);
(2002,2015); (2002,2016); (2003,2016); (2015,2016); (1999,2017); (2015,2017); (1918,2018); (1944,2018); (1971,2018); (2001,2019); (2012,2019); (2013,2019);
(2003,2020); (2005,2020); (2016,2020); (2005,2021); (2009,2021); (2020,2021); (1963,2022); (2006,2022); (2009,2023); (2013,2023); (2021,2023); (1991,2024);
(2007,2024); (2011,2024); (1944,2025); (1968,2025); (2018,2025); (2000,2026); (2011,2026); (2012,2026); (1925,2027); (1926,2027); (1978,2027); (2013,2028);
(2019,2028); (2023,2028); (1995,2029); (2007,2029); (2014,2029); (2015,2030); (2016,2030); (2012,2031); (2019,2031); (2026,2031); (2028,2031); (2016,2032);
(2020,2032); (2030,2032); (2015,2033); (2017,2033); (2030,2033); (2017,2034); (2033,2034); (2020,2035); (2021,2035); (2032,2035); (1968,2036); (1987,2036);
(2025,2036); (1947,2037); (1982,2037); (2004,2037); (2011,2038); (2024,2038); (2026,2038); (2021,2039); (2023,2039); (2035,2039); (2023,2040); (2028,2040);
(2039,2040); (2028,2041); (2031,2041); (2040,2041); (2010,2042); (2014,2042); (2026,2043); (2031,2043); (2038,2043); (2030,2044); (2032,2044); (2030,2045);
(2033,2045); (2044,2045); (2007,2046); (2024,2046); (2029,2046); (2033,2047); (2034,2047); (2045,2047); (2032,2048); (2035,2048); (2044,2048); (1889,2049);
(1915,2049); (1998,2049); (1987,2050); (2006,2050); (2036,2050); (2014,2051); (2029,2051); (2042,2051); (2031,2052); (2041,2052); (2043,2052); (2034,2053);
(2047,2053); (2035,2054); (2039,2054); (2048,2054); (2008,2055); (2010,2055); (2042,2055); (2040,2056); (2041,2056); (2052,2056); (1848,2057); (1888,2057);
(1951,2057); (2039,2058); (2040,2058); (2054,2058); (2056,2058); (1903,2059); (1939,2059); (1970,2059); (2038,2060); (2043,2060); (2044,2061); (2045,2061);
(2045,2062); (2047,2062); (2061,2062); (2043,2063); (2052,2063); (2060,2063); (2044,2064); (2048,2064); (2061,2064); (2024,2065); (2038,2065); (2046,2065);
(2060,2065); (2047,2066); (2053,2066); (2062,2066); (2048,2067); (2054,2067); (2064,2067); (1915,2068); (1926,2068); (2027,2068); (2049,2068); (2006,2069);
(2022,2069); (2050,2069); (2029,2070); (2046,2070); (2051,2070); (1939,2071); (1982,2071); (2037,2071); (2059,2071); (2053,2072); (2066,2072); (2052,2073);
(2056,2073); (2063,2073); (2054,2074); (2058,2074); (2067,2074); (1971,2075); (2004,2075); (2018,2075); (2056,2076); (2058,2076); (2073,2076); (2074,2076);
(2061,2077); (2062,2077); (2061,2078); (2064,2078); (2077,2078); (2062,2079); (2066,2079); (2077,2079); (2064,2080); (2067,2080); (2078,2080); (2060,2081);
(2063,2081); (2065,2081); (2022,2082); (2069,2082); (2066,2083); (2072,2083); (2079,2083); (2067,2084); (2074,2084); (2080,2084); (2077,2085); (2078,2085);
(2072,2086); (2083,2086); (1978,2087); (2008,2087); (2027,2087); (2055,2087); (2077,2088); (2079,2088); (2085,2088); (2078,2089); (2080,2089); (2085,2089);
(2046,2090); (2065,2090); (2070,2090); (2074,2091); (2076,2091); (2084,2091); (2063,2092); (2073,2092); (2081,2092); (2042,2093); (2055,2093); (2073,2094);
(2076,2094); (2091,2094); (2092,2094); (2042,2095)].
Definition airfoil_pairs_15 : list (N * N) := [
(2051,2095); (2070,2095); (2093,2095); (2079,2096); (2083,2096); (2088,2096); (2080,2097); (2084,2097); (2089,2097); (2085,2098); (2089,2098); (2097,2098);
(2083,2099); (2086,2099); (2096,2099); (2085,2100); (2088,2100); (2098,2100); (2036,2101); (2050,2101); (2084,2102); (2091,2102); (2097,2102); (2025,2103);
(2036,2103); (2101,2103); (2065,2104); (2081,2104); (2090,2104); (2088,2105); (2096,2105); (2100,2105); (2086,2106); (2099,2106); (2050,2107); (2069,2107);
(2101,2107); (2097,2108); (2098,2108); (2102,2108); (2091,2109); (2094,2109); (2102,2109); (2096,2110); (2099,2110); (2105,2110); (2098,2111); (2100,2111);
(2108,2111); (2092,2112); (2094,2112); (2109,2112); (2081,2113); (2092,2113); (2104,2113); (2112,2113); (2018,2114); (2025,2114); (2103,2114); (2099,2115);
(2106,2115); (2110,2115); (2100,2116); (2105,2116); (2111,2116); (2069,2117); (2082,2117); (2107,2117); (2004,2118); (2037,2118); (2075,2118); (2102,2119);
(2108,2119); (2111,2119); (2070,2120); (2090,2120); (2095,2120); (2105,2121); (2110,2121); (2116,2121); (2106,2122); (2115,2122); (2082,2123); (2117,2123);
(2102,2124); (2109,2124); (2119,2124); (2110,2125); (2115,2125); (2121,2125); (2111,2126); (2116,2126); (2119,2126); (2109,2127); (2112,2127); (2124,2127);
(2055,2128); (2087,2128); (2093,2128); (2112,2129); (2113,2129); (2127,2129); (2115,2130); (2122,2130); (2125,2130); (2104,2131); (2113,2131); (2129,2131);
(2116,2132); (2121,2132); (2126,2132); (2090,2133); (2104,2133); (2120,2133); (2131,2133); (2121,2134); (2125,2134); (2132,2134); (2122,2135); (2130,2135);
(2119,2136); (2124,2136); (2126,2136); (2018,2137); (2075,2137); (2114,2137); (2125,2138); (2130,2138); (2134,2138); (2093,2139); (2095,2139); (2120,2139);
(2128,2139); (2101,2140); (2107,2140); (1815,2141); (1857,2141); (1875,2141); (2124,2142); (2127,2142); (2136,2142); (2107,2143); (2117,2143); (2140,2143);
(2130,2144); (2135,2144); (2138,2144); (2134,2145); (2138,2145); (2132,2146); (2134,2146); (2145,2146); (2126,2147); (2132,2147); (2136,2147); (2146,2147);
(2101,2148); (2103,2148); (2140,2148); (2127,2149); (2129,2149); (2142,2149); (2135,2150); (2144,2150); (2117,2151); (2123,2151); (2143,2151); (2138,2152);
(2144,2152); (2145,2152); (2037,2153); (2071,2153); (2118,2153); (1761,2154); (1816,2154); (1957,2154); (2129,2155); (2131,2155); (2149,2155); (2136,2156);
(2142,2156); (2147,2156); (2123,2157); (2151,2157); (2145,2158); (2146,2158); (2152,2158); (2131,2159); (2133,2159); (2155,2159); (2144,2160); (2150,2160);
(2152,2160); (2103,2161); (2114,2161); (2148,2161); (1809,2162); (1877,2162); (1957,2162); (2142,2163); (2149,2163); (2156,2163); (2152,2164); (2158,2164);
(2160,2164); (2146,2165); (2147,2165); (2158,2165); (2150,2166); (2160,2166); (2149,2167); (2155,2167); (2163,2167); (2147,2168); (2156,2168); (2165,2168);
(2140,2169); (2143,2169); (2160,2170); (2164,2170); (2166,2170); (2143,2171); (2151,2171); (2169,2171); (2155,2172); (2159,2172); (2167,2172); (2158,2173);
(2164,2173); (2165,2173); (2027,2174); (2068,2174); (2087,2174); (2140,2175); (2148,2175); (2169,2175); (2164,2176); (2170,2176); (2173,2176); (2156,2177);
(2163,2177); (2168,2177); (1951,2178); (1998,2178); (2151,2179); (2157,2179); (2171,2179); (2059,2180); (2071,2180); (2153,2180); (2166,2181); (2170,2181);
(2165,2182); (2168,2182); (2173,2182); (2157,2183); (2179,2183); (2163,2184); (2167,2184); (2177,2184); (1888,2185); (1996,2185); (2057,2185); (2167,2186);
(2172,2186); (2184,2186); (2170,2187); (2176,2187); (2181,2187); (2075,2188); (2118,2188); (2137,2188); (2114,2189); (2137,2189); (2161,2189); (2148,2190);
(2161,2190); (2175,2190); (2120,2191); (2133,2191); (2139,2191); (2159,2191); (2173,2192); (2176,2192); (2187,2192); (2168,2193); (2177,2193); (2182,2193);
(1998,2194); (2049,2194); (2178,2194); (2169,2195); (2171,2195); (2173,2196); (2182,2196); (2192,2196); (2171,2197); (2179,2197); (2195,2197); (2181,2198);
(2187,2198); (1951,2199); (2057,2199); (2178,2199); (2169,2200); (2175,2200); (2195,2200); (2177,2201); (2184,2201); (2193,2201); (2184,2202); (2186,2202);
(2201,2202); (2182,2203); (2193,2203); (2196,2203); (2187,2204); (2192,2204); (2198,2204); (2179,2205); (2183,2205); (2197,2205); (2128,2206); (2139,2206);
(2191,2206); (2087,2207); (2128,2207); (2174,2207); (2206,2207); (2192,2208); (2196,2208); (2204,2208); (2183,2209); (2205,2209); (2161,2210); (2189,2210);
(2190,2210); (2195,2211); (2197,2211); (2175,2212); (2190,2212); (2200,2212); (2172,2213); (2186,2213); (2202,2213); (2198,2214); (2204,2214); (2159,2215);
(2172,2215); (2191,2215); (2213,2215); (2196,2216); (2203,2216); (2208,2216); (2197,2217); (2205,2217); (2211,2217); (2204,2218); (2208,2218); (2214,2218);
(2201,2219); (2202,2219); (2213,2219); (2193,2220); (2201,2220); (2203,2220); (2219,2220); (2195,2221); (2200,2221); (2211,2221); (2205,2222); (2209,2222);
(2217,2222); (2208,2223); (2216,2223); (2218,2223); (1970,2224); (2059,2224); (2180,2224); (2209,2225); (2222,2225); (2211,2226); (2217,2226); (2221,2226);
(2190,2227); (2210,2227); (2212,2227); (2137,2228); (2188,2228); (2189,2228); (2214,2229); (2218,2229); (2203,2230); (2216,2230); (2220,2230); (2200,2231);
(2212,2231); (2221,2231); (2191,2232); (2206,2232)].
Definition airfoil_pairs_16 : list (N * N) := [
(2215,2232); (2189,2233); (2210,2233); (2228,2233); (2217,2234); (2222,2234); (2226,2234); (2218,2235); (2223,2235); (2229,2235); (2216,2236); (2223,2236);
(2230,2236); (2118,2237); (2153,2237); (2188,2237); (2213,2238); (2215,2238); (2221,2239); (2226,2239); (2231,2239); (2222,2240); (2225,2240); (2234,2240);
(2049,2241); (2068,2241); (2194,2241); (2213,2242); (2219,2242); (2238,2242); (2223,2243); (2235,2243); (2236,2243); (2215,2244); (2232,2244); (2238,2244);
(2219,2245); (2220,2245); (2242,2245); (2229,2246); (2235,2246); (2225,2247); (2240,2247); (2220,2248); (2230,2248); (2245,2248); (2230,2249); (2236,2249);
(2248,2249); (2226,2250); (2234,2250); (2239,2250); (2212,2251); (2227,2251); (2231,2251); (2236,2252); (2243,2252); (2249,2252); (2210,2253); (2227,2253);
(2233,2253); (2235,2254); (2243,2254); (2246,2254); (2234,2255); (2240,2255); (2250,2255); (2243,2256); (2252,2256); (2254,2256); (2240,2257); (2247,2257);
(2255,2257); (2068,2258); (2174,2258); (2241,2258); (2232,2259); (2244,2259); (2246,2260); (2254,2260); (2252,2261); (2256,2261); (2249,2262); (2252,2262);
(2261,2262); (2247,2263); (2257,2263); (2231,2264); (2239,2264); (2251,2264); (1875,2265); (1884,2265); (1970,2265); (2141,2265); (2224,2265); (2238,2266);
(2242,2266); (2244,2266); (2248,2267); (2249,2267); (2262,2267); (2239,2268); (2250,2268); (2264,2268); (2244,2269); (2259,2269); (2266,2269); (2245,2270);
(2248,2270); (2250,2271); (2255,2271); (2268,2271); (2254,2272); (2256,2272); (2260,2272); (2248,2273); (2267,2273); (2242,2274); (2245,2274); (2270,2274);
(2248,2275); (2270,2275); (2273,2275); (2256,2276); (2261,2276); (2272,2276); (2255,2277); (2257,2277); (2271,2277); (2261,2278); (2262,2278); (2276,2278);
(2206,2279); (2232,2279); (2259,2279); (2206,2280); (2207,2280); (2279,2280); (2257,2281); (2263,2281); (2277,2281); (2260,2282); (2272,2282); (2270,2283);
(2274,2283); (2270,2284); (2275,2284); (2283,2284); (2227,2285); (2251,2285); (2253,2285); (2263,2286); (2281,2286); (2273,2287); (2275,2287); (2284,2287);
(2267,2288); (2273,2288); (2287,2288); (2262,2289); (2267,2289); (2278,2289); (2288,2289); (2242,2290); (2266,2290); (2274,2290); (2228,2291); (2233,2291);
(2253,2291); (2174,2292); (2207,2292); (2258,2292); (2280,2292); (2276,2293); (2278,2293); (2188,2294); (2228,2294); (2237,2294); (2259,2295); (2269,2295);
(2279,2295); (2272,2296); (2276,2296); (2293,2296); (2278,2297); (2289,2297); (2293,2297); (2272,2298); (2282,2298); (2296,2298); (2284,2299); (2287,2299);
(2283,2300); (2284,2300); (2299,2300); (2274,2301); (2283,2301); (2300,2301); (2271,2302); (2277,2302); (2287,2303); (2288,2303); (2299,2303); (2277,2304);
(2281,2304); (2302,2304); (2274,2305); (2290,2305); (2301,2305); (2281,2306); (2286,2306); (2304,2306); (2268,2307); (2271,2307); (2302,2307); (2282,2308);
(2298,2308); (2288,2309); (2289,2309); (2303,2309); (2286,2310); (2306,2310); (2293,2311); (2296,2311); (1877,2312); (1996,2312); (2162,2312); (2289,2313);
(2297,2313); (2309,2313); (2296,2314); (2298,2314); (2311,2314); (2293,2315); (2297,2315); (2311,2315); (2251,2316); (2264,2316); (2285,2316); (2266,2317);
(2269,2317); (2264,2318); (2268,2318); (2307,2318); (2316,2318); (2298,2319); (2308,2319); (2314,2319); (2297,2320); (2313,2320); (2315,2320); (2299,2321);
(2300,2321); (2300,2322); (2301,2322); (2321,2322); (2299,2323); (2303,2323); (2321,2323); (2269,2324); (2295,2324); (2317,2324); (2153,2325); (2180,2325);
(2237,2325); (2303,2326); (2309,2326); (2323,2326); (2301,2327); (2305,2327); (2322,2327); (2311,2328); (2314,2328); (2266,2329); (2290,2329); (2317,2329);
(2314,2330); (2319,2330); (2328,2330); (2308,2331); (2319,2331); (2311,2332); (2315,2332); (2328,2332); (2310,2333); (2309,2334); (2313,2334); (2326,2334);
(2306,2335); (2310,2335); (2333,2335); (2304,2336); (2306,2336); (2335,2336); (2290,2337); (2305,2337); (2319,2338); (2330,2338); (2331,2338); (2302,2339);
(2304,2339); (2336,2339); (2315,2340); (2320,2340); (2332,2340); (2313,2341); (2320,2341); (2334,2341); (2328,2342); (2330,2342); (2321,2343); (2322,2343);
(2321,2344); (2323,2344); (2343,2344); (2305,2345); (2327,2345); (2337,2345); (2323,2346); (2326,2346); (2344,2346); (2302,2347); (2307,2347); (2339,2347);
(2322,2348); (2327,2348); (2343,2348); (2253,2349); (2285,2349); (2291,2349); (2279,2350); (2295,2350); (2324,2350); (2320,2351); (2340,2351); (2341,2351);
(2326,2352); (2334,2352); (2346,2352); (2330,2353); (2338,2353); (2342,2353); (2328,2354); (2332,2354); (2342,2354); (2331,2355); (2333,2355); (2338,2355);
(2333,2356); (2335,2356); (2355,2356); (2332,2357); (2340,2357); (2354,2357); (2290,2358); (2329,2358); (2337,2358); (2327,2359); (2345,2359); (2348,2359);
(2307,2360); (2318,2360); (2347,2360); (2334,2361); (2341,2361); (2352,2361); (2342,2362); (2353,2362); (2354,2362); (2317,2363); (2329,2363); (2338,2364);
(2353,2364); (2355,2364); (2335,2365); (2336,2365); (2356,2365); (2178,2366); (2194,2366); (2344,2367); (2346,2367); (2343,2368); (2344,2368); (2367,2368);
(2343,2369); (2348,2369); (2368,2369); (2346,2370); (2352,2370); (2367,2370); (2228,2371); (2291,2371); (2294,2371); (2340,2372); (2351,2372); (2357,2372);
(2354,2373); (2357,2373); (2362,2373); (2341,2374)].
Definition airfoil_pairs_17 : list (N * N) := [
(2351,2374); (2361,2374); (2337,2375); (2345,2375); (2329,2376); (2358,2376); (2353,2377); (2362,2377); (2364,2377); (2348,2378); (2359,2378); (2369,2378);
(2355,2379); (2356,2379); (2364,2379); (2352,2380); (2361,2380); (2370,2380); (2336,2381); (2339,2381); (2365,2381); (2339,2382); (2347,2382); (2381,2382);
(2345,2383); (2359,2383); (2375,2383); (2351,2384); (2372,2384); (2374,2384); (2361,2385); (2374,2385); (2347,2386); (2360,2386); (2382,2386); (2329,2387);
(2363,2387); (2376,2387); (2317,2388); (2324,2388); (2357,2389); (2372,2389); (2373,2389); (2356,2390); (2365,2390); (2379,2390); (2361,2391); (2380,2391);
(2385,2391); (2359,2392); (2378,2392); (2383,2392); (2367,2393); (2368,2393); (2337,2394); (2358,2394); (2375,2394); (2362,2395); (2373,2395); (2377,2395);
(2367,2396); (2370,2396); (2393,2396); (2358,2397); (2394,2397); (2368,2398); (2369,2398); (2393,2398); (2364,2399); (2377,2399); (2379,2399); (2358,2400);
(2376,2400); (2397,2400); (2374,2401); (2384,2401); (2385,2401); (2317,2402); (2363,2402); (2388,2402); (2057,2403); (2185,2403); (2199,2403); (2369,2404);
(2378,2404); (2398,2404); (2370,2405); (2380,2405); (2396,2405); (2385,2406); (2401,2406); (2324,2407); (2350,2407); (2388,2407); (2385,2408); (2391,2408);
(2406,2408); (2363,2409); (2387,2409); (2402,2409); (2378,2410); (2392,2410); (2404,2410); (2194,2411); (2241,2411); (2366,2411); (2375,2412); (2383,2412);
(2380,2413); (2391,2413); (2405,2413); (2379,2414); (2390,2414); (2399,2414); (2377,2415); (2395,2415); (2399,2415); (2373,2416); (2389,2416); (2395,2416);
(2401,2417); (2406,2417); (2285,2418); (2316,2418); (2349,2418); (2383,2419); (2392,2419); (2412,2419); (2365,2420); (2381,2420); (2390,2420); (2372,2421);
(2384,2421); (2372,2422); (2389,2422); (2421,2422); (2406,2423); (2408,2423); (2417,2423); (2401,2424); (2417,2424); (2376,2425); (2387,2425); (2400,2425);
(2375,2426); (2394,2426); (2412,2426); (2384,2427); (2401,2427); (2424,2427); (2391,2428); (2408,2428); (2413,2428); (2397,2429); (2400,2429); (2384,2430);
(2421,2430); (2427,2430); (2279,2431); (2350,2431); (2392,2432); (2410,2432); (2419,2432); (2394,2433); (2397,2433); (2429,2433); (2417,2434); (2423,2434);
(2424,2434); (2394,2435); (2426,2435); (2433,2435); (2408,2436); (2423,2436); (2428,2436); (2399,2437); (2414,2437); (2415,2437); (2424,2438); (2427,2438);
(2434,2438); (2390,2439); (2414,2439); (2420,2439); (2423,2440); (2434,2440); (2436,2440); (2382,2441); (2386,2441); (2395,2442); (2415,2442); (2416,2442);
(2387,2443); (2409,2443); (2425,2443); (2389,2444); (2416,2444); (2422,2444); (2427,2445); (2430,2445); (2438,2445); (2400,2446); (2425,2446); (2429,2446);
(2434,2447); (2438,2447); (2440,2447); (2412,2448); (2419,2448); (2381,2449); (2382,2449); (2441,2449); (2430,2450); (2445,2450); (2414,2451); (2437,2451);
(2439,2451); (2412,2452); (2426,2452); (2448,2452); (2438,2453); (2445,2453); (2447,2453); (2419,2454); (2432,2454); (2448,2454); (2429,2455); (2433,2455);
(2421,2456); (2430,2456); (2450,2456); (2426,2457); (2435,2457); (2445,2458); (2450,2458); (2453,2458); (2350,2459); (2407,2459); (2431,2459); (2433,2460);
(2435,2460); (2455,2460); (2435,2461); (2457,2461); (2460,2461); (2415,2462); (2437,2462); (2442,2462); (2316,2463); (2318,2463); (2360,2463); (2429,2464);
(2446,2464); (2455,2464); (2426,2465); (2452,2465); (2457,2465); (2450,2466); (2456,2466); (2458,2466); (2421,2467); (2422,2467); (2456,2467); (2279,2468);
(2280,2468); (2431,2468); (2381,2469); (2420,2469); (2449,2469); (2388,2470); (2402,2470); (2416,2471); (2442,2471); (2444,2471); (2425,2472); (2443,2472);
(2446,2472); (2437,2473); (2451,2473); (2462,2473); (2402,2474); (2409,2474); (2470,2474); (2422,2475); (2444,2475); (2467,2475); (2448,2476); (2452,2476);
(2420,2477); (2439,2477); (2469,2477); (2448,2478); (2454,2478); (2476,2478); (2460,2479); (2461,2479); (2457,2480); (2465,2480); (2455,2481); (2460,2481);
(2479,2481); (2456,2482); (2466,2482); (2467,2482); (2457,2483); (2461,2483); (2479,2483); (2480,2483); (2280,2484); (2292,2484); (2468,2484); (2452,2485);
(2465,2485); (2476,2485); (2439,2486); (2451,2486); (2477,2486); (2409,2487); (2443,2487); (2474,2487); (2455,2488); (2464,2488); (2481,2488); (2465,2489);
(2480,2489); (2485,2489); (2446,2490); (2464,2490); (2472,2490); (2480,2491); (2483,2491); (2479,2492); (2481,2492); (2479,2493); (2483,2493); (2491,2493);
(2492,2493); (2442,2494); (2462,2494); (2471,2494); (2388,2495); (2407,2495); (2470,2495); (2480,2496); (2489,2496); (2491,2496); (2476,2497); (2478,2497);
(2476,2498); (2485,2498); (2497,2498); (2443,2499); (2472,2499); (2487,2499); (2489,2500); (2496,2500); (2485,2501); (2489,2501); (2498,2501); (2500,2501);
(2481,2502); (2488,2502); (2492,2502); (2451,2503); (2473,2503); (2486,2503); (2464,2504); (2488,2504); (2490,2504); (2444,2505); (2471,2505); (2475,2505);
(2492,2506); (2493,2506); (2491,2507); (2493,2507); (2506,2507); (2467,2508); (2475,2508); (2482,2508); (2491,2509); (2496,2509); (2507,2509); (2462,2510);
(2473,2510); (2494,2510); (2503,2510); (2472,2511); (2490,2511); (2499,2511); (2496,2512); (2500,2512); (2509,2512); (2500,2513); (2501,2513); (2512,2513);
(2488,2514); (2502,2514); (2504,2514); (2492,2515)].
Definition airfoil_pairs_18 : list (N * N) := [
(2502,2515); (2506,2515); (2498,2516); (2501,2516); (2513,2516); (2497,2517); (2498,2517); (2516,2517); (2477,2518); (2486,2518); (2506,2519); (2507,2519);
(2515,2519); (2507,2520); (2509,2520); (2519,2520); (2490,2521); (2504,2521); (2511,2521); (2449,2522); (2469,2522); (2509,2523); (2512,2523); (2520,2523);
(2502,2524); (2514,2524); (2515,2524); (2469,2525); (2477,2525); (2518,2525); (2522,2525); (2441,2526); (2449,2526); (2522,2526); (2512,2527); (2513,2527);
(2523,2527); (2516,2528); (2517,2528); (2513,2529); (2516,2529); (2527,2529); (2528,2529); (2504,2530); (2514,2530); (2521,2530); (2515,2531); (2519,2531);
(2524,2531); (2431,2532); (2459,2532); (2471,2533); (2494,2533); (2505,2533); (2519,2534); (2520,2534); (2531,2534); (2486,2535); (2503,2535); (2518,2535);
(2316,2536); (2418,2536); (2463,2536); (2475,2537); (2505,2537); (2508,2537); (2511,2538); (2521,2538); (2291,2539); (2349,2539); (2371,2539); (2487,2540);
(2499,2540); (2520,2541); (2523,2541); (2534,2541); (2514,2542); (2524,2542); (2530,2542); (2474,2543); (2487,2543); (2540,2543); (2470,2544); (2474,2544);
(2543,2544); (2499,2545); (2511,2545); (2538,2545); (2540,2545); (2523,2546); (2527,2546); (2541,2546); (2527,2547); (2529,2547); (2546,2547); (2528,2548);
(2529,2548); (2547,2548); (2521,2549); (2530,2549); (2538,2549); (2524,2550); (2531,2550); (2542,2550); (2531,2551); (2534,2551); (2550,2551); (2470,2552);
(2495,2552); (2544,2552); (2503,2553); (2510,2553); (2535,2553); (2534,2554); (2541,2554); (2551,2554); (2494,2555); (2510,2555); (2533,2555); (2553,2555);
(2541,2556); (2546,2556); (2554,2556); (2530,2557); (2542,2557); (2549,2557); (2546,2558); (2547,2558); (2556,2558); (2547,2559); (2548,2559); (2558,2559);
(2505,2560); (2533,2560); (2537,2560); (2542,2561); (2550,2561); (2557,2561); (2538,2562); (2545,2562); (2549,2562); (2407,2563); (2459,2563); (2495,2563);
(2508,2564); (2537,2564); (2560,2564); (2550,2565); (2551,2565); (2561,2565); (2518,2566); (2525,2566); (2535,2566); (2540,2567); (2545,2567); (2562,2567);
(2551,2568); (2554,2568); (2565,2568); (2554,2569); (2556,2569); (2568,2569); (2522,2570); (2525,2570); (2566,2570); (2556,2571); (2558,2571); (2569,2571);
(2549,2572); (2557,2572); (2562,2572); (2558,2573); (2559,2573); (2571,2573); (2360,2574); (2386,2574); (2441,2574); (2463,2574); (2526,2574); (2557,2575);
(2561,2575); (2572,2575); (2561,2576); (2565,2576); (2575,2576); (2495,2577); (2552,2577); (2563,2577); (2565,2578); (2568,2578); (2576,2578); (2562,2579);
(2572,2579); (2568,2580); (2569,2580); (2578,2580); (2431,2581); (2468,2581); (2532,2581); (2569,2582); (2571,2582); (2580,2582); (2571,2583); (2573,2583);
(2582,2583); (2572,2584); (2575,2584); (2579,2584); (2540,2585); (2543,2585); (2567,2585); (2543,2586); (2544,2586); (2585,2586); (2575,2587); (2576,2587);
(2584,2587); (2178,2588); (2199,2588); (2366,2588); (2535,2589); (2553,2589); (2566,2589); (2562,2590); (2567,2590); (2579,2590); (2544,2591); (2552,2591);
(2586,2591); (2576,2592); (2578,2592); (2587,2592); (2533,2593); (2555,2593); (2560,2593); (2578,2594); (2580,2594); (2592,2594); (2580,2595); (2582,2595);
(2594,2595); (2522,2596); (2526,2596); (2570,2596); (2574,2596); (2579,2597); (2584,2597); (2590,2597); (2582,2598); (2583,2598); (2595,2598); (2459,2599);
(2532,2599); (2563,2599); (2584,2600); (2587,2600); (2597,2600); (2567,2601); (2585,2601); (2590,2601); (2553,2602); (2555,2602); (2589,2602); (2593,2602);
(2587,2603); (2592,2603); (2600,2603); (2552,2604); (2577,2604); (2591,2604); (2241,2605); (2258,2605); (2592,2606); (2594,2606); (2603,2606); (2590,2607);
(2597,2607); (2601,2607); (2594,2608); (2595,2608); (2606,2608); (2595,2609); (2598,2609); (2608,2609); (2237,2610); (2294,2610); (2325,2610); (2566,2611);
(2570,2611); (2589,2611); (2596,2611); (2597,2612); (2600,2612); (2607,2612); (2600,2613); (2603,2613); (2612,2613); (2585,2614); (2586,2614); (2585,2615);
(2601,2615); (2614,2615); (2603,2616); (2606,2616); (2613,2616); (2606,2617); (2608,2617); (2616,2617); (2608,2618); (2609,2618); (2617,2618); (2258,2619);
(2292,2619); (2605,2619); (2601,2620); (2607,2620); (2615,2620); (2586,2621); (2591,2621); (2614,2621); (2563,2622); (2577,2622); (2604,2622); (2560,2623);
(2564,2623); (2593,2623); (2607,2624); (2612,2624); (2620,2624); (2612,2625); (2613,2625); (2624,2625); (2591,2626); (2604,2626); (2621,2626); (2349,2627);
(2418,2627); (2539,2627); (2613,2628); (2616,2628); (2625,2628); (2532,2629); (2581,2629); (2599,2629); (2616,2630); (2617,2630); (2628,2630); (2617,2631);
(2618,2631); (2630,2631); (2180,2632); (2224,2632); (2325,2632); (2463,2633); (2536,2633); (2574,2633); (2614,2634); (2615,2634); (2615,2635); (2620,2635);
(2634,2635); (2620,2636); (2624,2636); (2635,2636); (2563,2637); (2599,2637); (2622,2637); (2468,2638); (2484,2638); (2624,2639); (2625,2639); (2636,2639);
(2621,2640); (2626,2640); (2614,2641); (2621,2641); (2634,2641); (2640,2641); (2625,2642); (2628,2642); (2639,2642); (2628,2643); (2630,2643); (2642,2643);
(2630,2644); (2631,2644); (2643,2644); (2593,2645); (2602,2645); (2623,2645); (2589,2646); (2602,2646); (2611,2646); (2645,2646); (2574,2647); (2596,2647);
(2611,2647); (2646,2647); (2635,2648); (2636,2648)].
Definition airfoil_pairs_19 : list (N * N) := [
(2634,2649); (2635,2649); (2648,2649); (2636,2650); (2639,2650); (2648,2650); (2634,2651); (2641,2651); (2649,2651); (2639,2652); (2642,2652); (2650,2652);
(2642,2653); (2643,2653); (2652,2653); (2643,2654); (2644,2654); (2653,2654); (2294,2655); (2371,2655); (2610,2655); (2604,2656); (2622,2656); (2626,2656);
(2626,2657); (2640,2657); (2656,2657); (2418,2658); (2536,2658); (2627,2658); (2633,2658); (2468,2659); (2581,2659); (2638,2659); (2581,2660); (2629,2660);
(2659,2660); (2640,2661); (2641,2661); (2651,2661); (2657,2661); (2648,2662); (2649,2662); (2649,2663); (2651,2663); (2662,2663); (2648,2664); (2650,2664);
(2662,2664); (2650,2665); (2652,2665); (2664,2665); (2653,2666); (2654,2666); (2652,2667); (2653,2667); (2665,2667); (2666,2667); (2599,2668); (2629,2668);
(2637,2668); (2622,2669); (2637,2669); (2656,2669); (2651,2670); (2661,2670); (2663,2670); (2662,2671); (2663,2671); (2670,2671); (2484,2672); (2638,2672);
(2657,2673); (2661,2673); (2670,2673); (2662,2674); (2664,2674); (2671,2674); (2292,2675); (2484,2675); (2619,2675); (2672,2675); (2637,2676); (2668,2676);
(2669,2676); (2664,2677); (2665,2677); (2674,2677); (2666,2678); (2667,2678); (2665,2679); (2667,2679); (2677,2679); (2678,2679); (2623,2680); (2645,2680);
(2670,2681); (2671,2681); (2673,2681); (2656,2682); (2657,2682); (2673,2682); (2671,2683); (2674,2683); (2681,2683); (2638,2684); (2659,2684); (2241,2685);
(2411,2685); (2605,2685); (2678,2686); (2679,2686); (2674,2687); (2677,2687); (2683,2687); (2677,2688); (2679,2688); (2686,2688); (2687,2688); (2656,2689);
(2669,2689); (2682,2689); (2673,2690); (2681,2690); (2682,2690); (2371,2691); (2539,2691); (2655,2691); (2645,2692); (2646,2692); (2680,2692); (2681,2693);
(2683,2693); (2690,2693); (2629,2694); (2660,2694); (2668,2694); (2659,2695); (2660,2695); (2684,2695); (2669,2696); (2676,2696); (2689,2696); (2686,2697);
(2688,2697); (2683,2698); (2687,2698); (2693,2698); (2687,2699); (2688,2699); (2697,2699); (2698,2699); (2638,2700); (2672,2700); (2684,2700); (2646,2701);
(2647,2701); (2692,2701); (2668,2702); (2676,2702); (2694,2702); (2696,2702); (2682,2703); (2690,2703); (2690,2704); (2693,2704); (2703,2704); (2574,2705);
(2633,2705); (2647,2705); (2701,2705); (2682,2706); (2689,2706); (2703,2706); (2697,2707); (2699,2707); (2693,2708); (2698,2708); (2704,2708); (2698,2709);
(2699,2709); (2707,2709); (2708,2709); (2660,2710); (2694,2710); (2695,2710); (2696,2711); (2702,2711); (2672,2712); (2700,2712); (2689,2713); (2696,2713);
(2706,2713); (2711,2713); (2684,2714); (2695,2714); (2700,2714); (2707,2715); (2709,2715); (2539,2716); (2627,2716); (2691,2716); (2708,2717); (2709,2717);
(2715,2717); (2704,2718); (2708,2718); (2717,2718); (2703,2719); (2704,2719); (2718,2719); (2680,2720); (2692,2720); (2703,2721); (2706,2721); (2719,2721);
(1996,2722); (2185,2722); (2312,2722); (2694,2723); (2702,2723); (2706,2724); (2713,2724); (2721,2724); (2702,2725); (2711,2725); (2723,2725); (2605,2726);
(2619,2726); (2711,2727); (2713,2727); (2724,2727); (2725,2727); (2715,2728); (2717,2728); (2717,2729); (2718,2729); (2728,2729); (2633,2730); (2658,2730);
(2705,2730); (2700,2731); (2712,2731); (2714,2731); (2627,2732); (2658,2732); (2716,2732); (2730,2732); (2718,2733); (2719,2733); (2729,2733); (2605,2734);
(2685,2734); (2726,2734); (2694,2735); (2710,2735); (2723,2735); (2719,2736); (2721,2736); (2733,2736); (2672,2737); (2675,2737); (2712,2737); (2721,2738);
(2724,2738); (2736,2738); (2366,2739); (2411,2739); (2724,2740); (2727,2740); (2738,2740); (2695,2741); (2710,2741); (2714,2741); (2728,2742); (2729,2742);
(2199,2743); (2403,2743); (2588,2743); (2692,2744); (2701,2744); (2720,2744); (2729,2745); (2733,2745); (2742,2745); (2733,2746); (2736,2746); (2745,2746);
(2725,2747); (2727,2747); (2740,2747); (2710,2748); (2735,2748); (2741,2748); (2736,2749); (2738,2749); (2746,2749); (2712,2750); (2731,2750); (2737,2750);
(2738,2751); (2740,2751); (2749,2751); (2619,2752); (2675,2752); (2740,2753); (2747,2753); (2751,2753); (2714,2754); (2731,2754); (2741,2754); (2742,2755);
(2745,2755); (2723,2756); (2725,2756); (2747,2756); (2735,2757); (2748,2757); (2675,2758); (2737,2758); (2752,2758); (2745,2759); (2746,2759); (2755,2759);
(2723,2760); (2735,2760); (2756,2760); (2757,2760); (2746,2761); (2749,2761); (2759,2761); (2411,2762); (2685,2762); (2739,2762); (2749,2763); (2751,2763);
(2761,2763); (2619,2764); (2726,2764); (2752,2764); (2751,2765); (2753,2765); (2763,2765); (1857,2766); (1931,2766); (2141,2766); (2720,2767); (2744,2767);
(2731,2768); (2750,2768); (2754,2768); (2747,2769); (2753,2769); (2765,2769); (2701,2770); (2705,2770); (2744,2770); (2755,2771); (2759,2771); (2741,2772);
(2754,2772); (2759,2773); (2761,2773); (2771,2773); (2741,2774); (2748,2774); (2772,2774); (2747,2775); (2756,2775); (2769,2775); (2610,2776); (2655,2776);
(2765,2777); (2769,2777); (2761,2778); (2763,2778); (2773,2778); (2737,2779); (2758,2779); (2756,2780); (2760,2780); (2757,2781); (2760,2781); (2780,2781);
(2763,2782); (2765,2782); (2777,2782); (2778,2782); (2655,2783); (2691,2783); (2776,2783); (2748,2784); (2757,2784); (2774,2784); (2781,2784); (2737,2785);
(2750,2785); (2779,2785); (2726,2786); (2764,2786)].
Definition airfoil_pairs_20 : list (N * N) := [
(2325,2787); (2610,2787); (2632,2787); (2776,2787); (2366,2788); (2588,2788); (2739,2788); (2750,2789); (2768,2789); (2785,2789); (2754,2790); (2768,2790);
(2772,2790); (2771,2791); (2773,2791); (2769,2792); (2775,2792); (2777,2792); (2756,2793); (2775,2793); (2780,2793); (2726,2794); (2734,2794); (2773,2795);
(2778,2795); (2791,2795); (2778,2796); (2782,2796); (2795,2796); (2777,2797); (2782,2797); (2792,2797); (2796,2797); (2752,2798); (2758,2798); (2772,2799);
(2774,2799); (2779,2800); (2785,2800); (2768,2801); (2789,2801); (2790,2801); (2752,2802); (2764,2802); (2798,2802); (2774,2803); (2784,2803); (2799,2803);
(2779,2804); (2800,2804); (2691,2805); (2716,2805); (2783,2805); (2781,2806); (2784,2806); (2803,2806); (2775,2807); (2792,2807); (2793,2807); (2785,2808);
(2789,2808); (2772,2809); (2790,2809); (2799,2809); (2785,2810); (2800,2810); (2808,2810); (2744,2811); (2767,2811); (2770,2811); (2780,2812); (2781,2812);
(2806,2812); (2726,2813); (2786,2813); (2794,2813); (2758,2814); (2779,2814); (2791,2815); (2795,2815); (2764,2816); (2786,2816); (2802,2816); (2779,2817);
(2804,2817); (2814,2817); (2789,2818); (2801,2818); (2808,2818); (2795,2819); (2796,2819); (2815,2819); (2780,2820); (2793,2820); (2812,2820); (2792,2821);
(2797,2821); (2807,2821); (2685,2822); (2734,2822); (2794,2822); (2796,2823); (2797,2823); (2819,2823); (2821,2823); (2790,2824); (2801,2824); (2809,2824);
(2800,2825); (2804,2825); (2810,2825); (2786,2826); (2813,2826); (2816,2826); (2758,2827); (2798,2827); (2814,2827); (2804,2828); (2817,2828); (2825,2828);
(2810,2829); (2825,2829); (2716,2830); (2732,2830); (2805,2830); (2799,2831); (2803,2831); (2767,2832); (2811,2832); (2808,2833); (2810,2833); (2829,2833);
(2705,2834); (2730,2834); (2770,2834); (2803,2835); (2806,2835); (2831,2835); (2799,2836); (2809,2836); (2831,2836); (2801,2837); (2818,2837); (2824,2837);
(2806,2838); (2812,2838); (2835,2838); (2808,2839); (2818,2839); (2833,2839); (2814,2840); (2817,2840); (2798,2841); (2802,2841); (2815,2842); (2819,2842);
(2825,2843); (2828,2843); (2829,2843); (2817,2844); (2828,2844); (2840,2844); (2793,2845); (2807,2845); (2820,2845); (2798,2846); (2827,2846); (2841,2846);
(2802,2847); (2816,2847); (2841,2847); (2814,2848); (2827,2848); (2840,2848); (2809,2849); (2824,2849); (2836,2849); (2807,2850); (2821,2850); (2845,2850);
(2819,2851); (2823,2851); (2842,2851); (2730,2852); (2732,2852); (2830,2852); (2834,2852); (2821,2853); (2823,2853); (2850,2853); (2851,2853); (2829,2854);
(2833,2854); (2843,2854); (2828,2855); (2843,2855); (2844,2855); (2818,2856); (2837,2856); (2839,2856); (2685,2857); (2762,2857); (2822,2857); (2812,2858);
(2820,2858); (2838,2858); (2835,2859); (2838,2859); (2833,2860); (2839,2860); (2854,2860); (2824,2861); (2837,2861); (2849,2861); (2816,2862); (2826,2862);
(2847,2862); (2827,2863); (2846,2863); (2848,2863); (2843,2864); (2854,2864); (2855,2864); (2739,2865); (2762,2865); (2831,2866); (2835,2866); (2859,2866);
(2840,2867); (2844,2867); (2813,2868); (2826,2868); (2862,2868); (2185,2869); (2403,2869); (2722,2869); (2840,2870); (2848,2870); (2867,2870); (2739,2871);
(2788,2871); (2865,2871); (2844,2872); (2855,2872); (2867,2872); (2831,2873); (2836,2873); (2866,2873); (2839,2874); (2856,2874); (2860,2874); (2794,2875);
(2813,2875); (2868,2875); (2837,2876); (2856,2876); (2861,2876); (2838,2877); (2858,2877); (2859,2877); (2820,2878); (2845,2878); (2858,2878); (2854,2879);
(2860,2879); (2864,2879); (2841,2880); (2846,2880); (2855,2881); (2864,2881); (2872,2881); (2836,2882); (2849,2882); (2873,2882); (2842,2883); (2851,2883);
(2841,2884); (2847,2884); (2880,2884); (2848,2885); (2863,2885); (2870,2885); (2864,2886); (2879,2886); (2881,2886); (2851,2887); (2853,2887); (2883,2887);
(2846,2888); (2863,2888); (2880,2888); (2860,2889); (2874,2889); (2879,2889); (2770,2890); (2811,2890); (2834,2890); (2856,2891); (2874,2891); (2876,2891);
(2850,2892); (2853,2892); (2887,2892); (2849,2893); (2861,2893); (2882,2893); (2845,2894); (2850,2894); (2892,2894); (2859,2895); (2866,2895); (2877,2895);
(2879,2896); (2886,2896); (2889,2896); (2588,2897); (2743,2897); (2788,2897); (2863,2898); (2885,2898); (2888,2898); (2847,2899); (2862,2899); (2884,2899);
(2858,2900); (2877,2900); (2878,2900); (2861,2901); (2876,2901); (2893,2901); (2874,2902); (2889,2902); (2891,2902); (2845,2903); (2878,2903); (2894,2903);
(2880,2904); (2884,2904); (2866,2905); (2873,2905); (2895,2905); (2889,2906); (2896,2906); (2902,2906); (2794,2907); (2822,2907); (2875,2907); (2876,2908);
(2891,2908); (2901,2908); (2880,2909); (2888,2909); (2904,2909); (2873,2910); (2882,2910); (2905,2910); (2862,2911); (2868,2911); (2899,2911); (2877,2912);
(2895,2912); (2900,2912); (2883,2913); (2887,2913); (2811,2914); (2832,2914); (2890,2914); (2882,2915); (2893,2915); (2910,2915); (2891,2916); (2902,2916);
(2908,2916); (2888,2917); (2898,2917); (2909,2917); (2762,2918); (2857,2918); (2865,2918); (2832,2919); (2914,2919); (2884,2920); (2899,2920); (2904,2920);
(2887,2921); (2892,2921); (2913,2921); (2878,2922); (2900,2922); (2903,2922); (2902,2923); (2906,2923); (2916,2923); (2893,2924); (2901,2924); (2915,2924);
(2822,2925); (2857,2925); (2907,2925); (2892,2926)].
Definition airfoil_pairs_21 : list (N * N) := [
(2894,2926); (2921,2926); (2868,2927); (2875,2927); (2911,2927); (2904,2928); (2909,2928); (2920,2928); (2895,2929); (2905,2929); (2912,2929); (2901,2930);
(2908,2930); (2924,2930); (2894,2931); (2903,2931); (2926,2931); (2899,2932); (2911,2932); (2920,2932); (2908,2933); (2916,2933); (2930,2933); (2900,2934);
(2912,2934); (2922,2934); (2916,2935); (2923,2935); (2933,2935); (2905,2936); (2910,2936); (2929,2936); (2776,2937); (2783,2937); (2865,2938); (2871,2938);
(2909,2939); (2917,2939); (2928,2939); (2910,2940); (2915,2940); (2936,2940); (2903,2941); (2922,2941); (2931,2941); (2920,2942); (2928,2942); (2932,2942);
(2915,2943); (2924,2943); (2940,2943); (2913,2944); (2921,2944); (2912,2945); (2929,2945); (2934,2945); (2783,2946); (2805,2946); (2937,2946); (2924,2947);
(2930,2947); (2943,2947); (2930,2948); (2933,2948); (2947,2948); (2933,2949); (2935,2949); (2948,2949); (2911,2950); (2927,2950); (2932,2950); (2921,2951);
(2926,2951); (2944,2951); (2865,2952); (2918,2952); (2938,2952); (2922,2953); (2934,2953); (2941,2953); (2929,2954); (2936,2954); (2945,2954); (2928,2955);
(2939,2955); (2942,2955); (2926,2956); (2931,2956); (2951,2956); (2875,2957); (2907,2957); (2927,2957); (2934,2958); (2945,2958); (2953,2958); (2940,2959);
(2943,2959); (2936,2960); (2940,2960); (2954,2960); (2959,2960); (2932,2961); (2942,2961); (2950,2961); (2943,2962); (2947,2962); (2959,2962); (2931,2963);
(2941,2963); (2956,2963); (2948,2964); (2949,2964); (2947,2965); (2948,2965); (2962,2965); (2964,2965); (2805,2966); (2830,2966); (2946,2966); (2919,2967);
(2941,2968); (2953,2968); (2963,2968); (2944,2969); (2951,2969); (2776,2970); (2787,2970); (2937,2970); (2857,2971); (2918,2971); (2925,2971); (2942,2972);
(2955,2972); (2961,2972); (2788,2973); (2871,2973); (2945,2974); (2954,2974); (2958,2974); (2953,2975); (2958,2975); (2968,2975); (2951,2976); (2956,2976);
(2969,2976); (2964,2977); (2965,2977); (2927,2978); (2950,2978); (2957,2978); (2914,2979); (2919,2979); (2967,2979); (2958,2980); (2974,2980); (2975,2980);
(2962,2981); (2965,2981); (2977,2981); (2959,2982); (2962,2982); (2981,2982); (2959,2983); (2960,2983); (2982,2983); (2224,2984); (2265,2984); (2632,2984);
(2830,2985); (2852,2985); (2966,2985); (2834,2986); (2852,2986); (2985,2986); (2956,2987); (2963,2987); (2976,2987); (2890,2988); (2914,2988); (2979,2988);
(2954,2989); (2960,2989); (2974,2989); (2983,2989); (2871,2990); (2938,2990); (2973,2990); (2834,2991); (2890,2991); (2986,2991); (2988,2991); (2950,2992);
(2961,2992); (2978,2992); (2963,2993); (2968,2993); (2987,2993); (2918,2994); (2952,2994); (2971,2994); (2907,2995); (2925,2995); (2977,2996); (2981,2996);
(2968,2997); (2975,2997); (2993,2997); (2974,2998); (2980,2998); (2788,2999); (2897,2999); (2973,2999); (2981,3000); (2982,3000); (2996,3000); (2938,3001);
(2952,3001); (2990,3001); (2952,3002); (2994,3002); (3001,3002); (2982,3003); (2983,3003); (3000,3003); (2975,3004); (2980,3004); (2997,3004); (2998,3004);
(2969,3005); (2976,3005); (2974,3006); (2989,3006); (2998,3006); (2961,3007); (2972,3007); (2992,3007); (2983,3008); (2989,3008); (3003,3008); (2907,3009);
(2957,3009); (2995,3009); (2976,3010); (2987,3010); (3005,3010); (2989,3011); (3006,3011); (3008,3011); (2996,3012); (3000,3012); (2967,3013); (2987,3014);
(2993,3014); (3010,3014); (2957,3015); (2978,3015); (3009,3015); (3000,3016); (3003,3016); (3012,3016); (2998,3017); (3006,3017); (2993,3018); (2997,3018);
(3014,3018); (3003,3019); (3008,3019); (3016,3019); (2403,3020); (2743,3020); (2869,3020); (2997,3021); (3004,3021); (3018,3021); (2978,3022); (2992,3022);
(3015,3022); (2998,3023); (3004,3023); (3017,3023); (3021,3023); (3008,3024); (3011,3024); (3019,3024); (3006,3025); (3011,3025); (3017,3025); (3024,3025);
(2967,3026); (2979,3026); (3013,3026); (3005,3027); (3010,3027); (3012,3028); (3016,3028); (2925,3029); (2971,3029); (2995,3029); (3010,3030); (3014,3030);
(3027,3030); (2992,3031); (3007,3031); (3022,3031); (3016,3032); (3019,3032); (3028,3032); (3014,3033); (3018,3033); (3030,3033); (3019,3034); (3024,3034);
(3032,3034); (3017,3035); (3025,3035); (3024,3036); (3025,3036); (3034,3036); (3035,3036); (2971,3037); (2994,3037); (3029,3037); (2994,3038); (3002,3038);
(3037,3038); (3021,3039); (3023,3039); (2937,3040); (2946,3040); (2970,3040); (3018,3041); (3021,3041); (3033,3041); (3039,3041); (2995,3042); (3009,3042);
(3028,3043); (3032,3043); (2979,3044); (2988,3044); (3026,3044); (3001,3045); (3002,3045); (3038,3045); (3017,3046); (3023,3046); (3035,3046); (3039,3046);
(2995,3047); (3029,3047); (3042,3047); (3009,3048); (3015,3048); (3042,3048); (3013,3049); (3027,3050); (3030,3050); (3032,3051); (3034,3051); (3043,3051);
(3015,3052); (3022,3052); (3048,3052); (3030,3053); (3033,3053); (3050,3053); (3034,3054); (3036,3054); (3051,3054); (3035,3055); (3036,3055); (3054,3055);
(2897,3056); (2999,3056); (2743,3057); (2897,3057); (3020,3057); (3056,3057); (3039,3058); (3041,3058); (3033,3059); (3041,3059); (3053,3059); (2988,3060);
(2991,3060); (3044,3060); (3035,3061); (3046,3061); (3055,3061); (3043,3062); (3051,3062); (3013,3063); (3026,3063); (3049,3063); (3022,3064); (3031,3064);
(3052,3064); (2946,3065); (2966,3065); (3040,3065)].
Definition airfoil_pairs_22 : list (N * N) := [
(3039,3066); (3046,3066); (3058,3066); (2141,3067); (2265,3067); (2766,3067); (2990,3068); (3001,3068); (3045,3068); (3041,3069); (3058,3069); (3059,3069);
(3051,3070); (3054,3070); (3062,3070); (2973,3071); (2990,3071); (2999,3071); (3046,3072); (3061,3072); (3066,3072); (3050,3073); (3053,3073); (3054,3074);
(3055,3074); (3070,3074); (3055,3075); (3061,3075); (3074,3075); (3053,3076); (3059,3076); (3073,3076); (3042,3077); (3047,3077); (3029,3078); (3037,3078);
(3062,3079); (3070,3079); (3042,3080); (3048,3080); (3077,3080); (3058,3081); (3066,3081); (3069,3081); (3059,3082); (3069,3082); (3076,3082); (1957,3083);
(2162,3083); (2966,3084); (2985,3084); (3065,3084); (3037,3085); (3038,3085); (3078,3085); (3038,3086); (3045,3086); (3085,3086); (2986,3087); (2991,3087);
(3060,3087); (3026,3088); (3044,3088); (3063,3088); (3048,3089); (3052,3089); (3080,3089); (2999,3090); (3056,3090); (3071,3090); (3049,3091); (2162,3092);
(2312,3092); (3083,3092); (3066,3093); (3072,3093); (3081,3093); (3061,3094); (3072,3094); (3075,3094); (3029,3095); (3047,3095); (3078,3095); (3070,3096);
(3074,3096); (3079,3096); (2985,3097); (2986,3097); (3084,3097); (3087,3097); (3069,3098); (3081,3098); (3082,3098); (3074,3099); (3075,3099); (3096,3099);
(3073,3100); (3076,3100); (3052,3101); (3064,3101); (3089,3101); (3081,3102); (3093,3102); (3098,3102); (3076,3103); (3082,3103); (3100,3103); (3079,3104);
(3096,3104); (3072,3105); (3093,3105); (3094,3105); (3044,3106); (3060,3106); (3088,3106); (3049,3107); (3063,3107); (3091,3107); (3075,3108); (3094,3108);
(3099,3108); (3045,3109); (3068,3109); (3086,3109); (3082,3110); (3098,3110); (3103,3110); (3093,3111); (3102,3111); (3105,3111); (3098,3112); (3102,3112);
(3110,3112); (3047,3113); (3077,3113); (3095,3113); (3096,3114); (3099,3114); (3104,3114); (3102,3115); (3111,3115); (3112,3115); (2990,3116); (3068,3116);
(3071,3116); (3100,3117); (3103,3117); (3094,3118); (3105,3118); (3108,3118); (3085,3119); (3086,3119); (3077,3120); (3080,3120); (3113,3120); (3078,3121);
(3085,3121); (3119,3121); (3104,3122); (3114,3122); (3103,3123); (3110,3123); (3117,3123); (3063,3124); (3088,3124); (3107,3124); (3099,3125); (3108,3125);
(3114,3125); (3080,3126); (3089,3126); (3120,3126); (3091,3127); (3110,3128); (3112,3128); (3123,3128); (3105,3129); (3111,3129); (3118,3129); (3112,3130);
(3115,3130); (3128,3130); (3111,3131); (3115,3131); (3129,3131); (3130,3131); (3088,3132); (3106,3132); (3124,3132); (3114,3133); (3122,3133); (3125,3133);
(3108,3134); (3118,3134); (3125,3134); (2632,3135); (2787,3135); (2970,3135); (2984,3135); (3078,3136); (3095,3136); (3121,3136); (3117,3137); (3123,3137);
(3089,3138); (3101,3138); (3126,3138); (3123,3139); (3128,3139); (3137,3139); (2970,3140); (3040,3140); (3135,3140); (3128,3141); (3130,3141); (3139,3141);
(3091,3142); (3107,3142); (3127,3142); (3122,3143); (3133,3143); (3118,3144); (3129,3144); (3134,3144); (3086,3145); (3109,3145); (3119,3145); (3068,3146);
(3109,3146); (3116,3146); (3095,3147); (3113,3147); (3136,3147); (3130,3148); (3131,3148); (3141,3148); (3129,3149); (3131,3149); (3148,3149); (2312,3150);
(2722,3150); (3092,3150); (3129,3151); (3144,3151); (3149,3151); (3141,3152); (3148,3152); (3137,3153); (3139,3153); (3139,3154); (3141,3154); (3152,3154);
(3153,3154); (3127,3155); (3119,3156); (3121,3156); (3145,3156); (3125,3157); (3133,3157); (3134,3157); (3133,3158); (3143,3158); (3157,3158); (3113,3159);
(3120,3159); (3147,3159); (3107,3160); (3124,3160); (3142,3160); (3134,3161); (3144,3161); (3157,3161); (1957,3162); (2154,3162); (3083,3162); (3143,3163);
(3158,3163); (3120,3164); (3126,3164); (3159,3164); (3056,3165); (3090,3165); (3060,3166); (3087,3166); (3106,3166); (3148,3167); (3152,3167); (3040,3168);
(3065,3168); (3140,3168); (3144,3169); (3151,3169); (3161,3169); (3148,3170); (3149,3170); (3167,3170); (3152,3171); (3154,3171); (3167,3171); (3124,3172);
(3132,3172); (3160,3172); (3153,3173); (3154,3173); (3171,3173); (3071,3174); (3090,3174); (3149,3175); (3151,3175); (3170,3175); (3127,3176); (3142,3176);
(3155,3176); (3109,3177); (3145,3177); (3146,3177); (3126,3178); (3138,3178); (3164,3178); (3158,3179); (3163,3179); (3121,3180); (3136,3180); (3156,3180);
(3167,3181); (3170,3181); (3157,3182); (3161,3182); (3157,3183); (3158,3183); (3179,3183); (3182,3183); (3071,3184); (3116,3184); (3174,3184); (3151,3185);
(3169,3185); (3175,3185); (3155,3186); (3167,3187); (3171,3187); (3181,3187); (3163,3188); (3179,3188); (3161,3189); (3169,3189); (3182,3189); (3171,3190);
(3173,3190); (3187,3190); (3136,3191); (3147,3191); (3180,3191); (3106,3192); (3132,3192); (3166,3192); (3172,3192); (3170,3193); (3175,3193); (3181,3193);
(3169,3194); (3185,3194); (3189,3194); (3145,3195); (3156,3195); (3177,3195); (3175,3196); (3185,3196); (3142,3197); (3160,3197); (3176,3197); (3056,3198);
(3057,3198); (3165,3198); (3116,3199); (3146,3199); (3184,3199); (3181,3200); (3187,3200); (3193,3200); (3182,3201); (3183,3201); (3147,3202); (3159,3202);
(3191,3202); (3179,3203); (3183,3203); (3201,3203); (3187,3204); (3190,3204); (3200,3204); (3179,3205); (3188,3205); (3203,3205); (3155,3206); (3176,3206);
(3186,3206); (3175,3207); (3193,3207); (3196,3207)].
Definition airfoil_pairs_23 : list (N * N) := [
(3182,3208); (3189,3208); (3201,3208); (3185,3209); (3194,3209); (3196,3209); (3090,3210); (3165,3210); (3174,3210); (3188,3211); (3205,3211); (3186,3212);
(3159,3213); (3164,3213); (3202,3213); (3189,3214); (3194,3214); (3208,3214); (3196,3215); (3209,3215); (3193,3216); (3200,3216); (3207,3216); (3203,3217);
(3205,3217); (3211,3217); (3065,3218); (3084,3218); (3168,3218); (3200,3219); (3204,3219); (3194,3220); (3209,3220); (3214,3220); (3196,3221); (3207,3221);
(3215,3221); (3201,3222); (3203,3222); (3217,3222); (3200,3223); (3216,3223); (3219,3223); (3211,3224); (3217,3224); (3160,3225); (3172,3225); (3197,3225);
(3207,3226); (3216,3226); (3221,3226); (3209,3227); (3215,3227); (3220,3227); (3201,3228); (3208,3228); (3222,3228); (3146,3229); (3177,3229); (3199,3229);
(3156,3230); (3180,3230); (3195,3230); (3212,3231); (3186,3232); (3206,3232); (3212,3232); (3164,3233); (3178,3233); (3213,3233); (3216,3234); (3223,3234);
(3226,3234); (3215,3235); (3221,3235); (3227,3235); (3208,3236); (3214,3236); (3228,3236); (3217,3237); (3222,3237); (3224,3237); (3219,3238); (3223,3238);
(3087,3239); (3097,3239); (3166,3239); (3211,3240); (3224,3240); (3221,3241); (3226,3241); (3235,3241); (3214,3242); (3220,3242); (3236,3242); (3223,3243);
(3234,3243); (3238,3243); (3176,3244); (3197,3244); (3206,3244); (3226,3245); (3234,3245); (3241,3245); (3220,3246); (3227,3246); (3242,3246); (3180,3247);
(3191,3247); (3230,3247); (3231,3248); (3227,3249); (3235,3249); (3246,3249); (3234,3250); (3243,3250); (3245,3250); (3222,3251); (3228,3251); (3237,3251);
(3084,3252); (3097,3252); (3218,3252); (3239,3252); (3238,3253); (3243,3253); (3212,3254); (3231,3254); (3232,3254); (3235,3255); (3241,3255); (3249,3255);
(3243,3256); (3250,3256); (3253,3256); (3248,3257); (3177,3258); (3195,3258); (3229,3258); (3241,3259); (3245,3259); (3255,3259); (3224,3260); (3237,3260);
(3240,3260); (3228,3261); (3236,3261); (3251,3261); (3257,3262); (3191,3263); (3202,3263); (3247,3263); (3245,3264); (3250,3264); (3259,3264); (3174,3265);
(3184,3265); (3236,3266); (3242,3266); (3261,3266); (3250,3267); (3256,3267); (3264,3267); (3231,3268); (3248,3268); (3254,3268); (3262,3269); (3242,3270);
(3246,3270); (3266,3270); (3253,3271); (3256,3271); (3267,3271); (3248,3272); (3257,3272); (3262,3272); (3268,3272); (3246,3273); (3249,3273); (3270,3273);
(3020,3274); (3057,3274); (3198,3274); (3269,3275); (3165,3276); (3198,3276); (3237,3277); (3251,3277); (3260,3277); (2265,3278); (2984,3278); (3067,3278);
(3206,3279); (3232,3279); (3244,3279); (3240,3280); (3260,3280); (3275,3281); (3249,3282); (3255,3282); (3273,3282); (3172,3283); (3192,3283); (3225,3283);
(3271,3284); (3281,3284); (3174,3285); (3210,3285); (3265,3285); (3184,3286); (3199,3286); (3265,3286); (3202,3287); (3213,3287); (3263,3287); (3255,3288);
(3259,3288); (3282,3288); (3262,3289); (3269,3289); (3272,3289); (3269,3290); (3275,3290); (3289,3290); (3275,3291); (3281,3291); (3290,3291); (3259,3292);
(3264,3292); (3288,3292); (3281,3293); (3284,3293); (3291,3293); (3264,3294); (3267,3294); (3292,3294); (3267,3295); (3271,3295); (3284,3295); (3294,3295);
(3197,3296); (3225,3296); (3244,3296); (3284,3297); (3293,3297); (3295,3297); (3251,3298); (3261,3298); (3277,3298); (3290,3299); (3291,3299); (3293,3299);
(3297,3299); (3232,3300); (3254,3300); (3279,3300); (3273,3301); (3282,3301); (3270,3302); (3273,3302); (3301,3302); (3282,3303); (3288,3303); (3301,3303);
(3295,3304); (3297,3304); (3299,3304); (3288,3305); (3292,3305); (3303,3305); (3195,3306); (3230,3306); (3258,3306); (3292,3307); (3294,3307); (3305,3307);
(3294,3308); (3295,3308); (3304,3308); (3307,3308); (3266,3309); (3270,3309); (3302,3309); (3261,3310); (3266,3310); (3298,3310); (3309,3310); (3268,3311);
(3272,3311); (3289,3311); (3289,3312); (3290,3312); (3299,3312); (3311,3312); (3254,3313); (3268,3313); (3300,3313); (3311,3313); (3213,3314); (3233,3314);
(3287,3314); (3165,3315); (3210,3315); (3276,3315); (3299,3316); (3304,3316); (3312,3316); (3199,3317); (3229,3317); (3286,3317); (3260,3318); (3277,3318);
(3280,3318); (3304,3319); (3308,3319); (3316,3319); (3301,3320); (3303,3320); (3301,3321); (3302,3321); (3320,3321); (3307,3322); (3308,3322); (3319,3322);
(3303,3323); (3305,3323); (3320,3323); (3305,3324); (3307,3324); (3322,3324); (3323,3324); (3166,3325); (3192,3325); (3283,3325); (3312,3326); (3316,3326);
(3230,3327); (3247,3327); (3306,3327); (3302,3328); (3309,3328); (3321,3328); (3277,3329); (3298,3329); (3318,3329); (3311,3330); (3312,3330); (3326,3330);
(3280,3331); (3318,3331); (3316,3332); (3319,3332); (3326,3332); (3244,3333); (3279,3333); (3296,3333); (3319,3334); (3322,3334); (3332,3334); (3309,3335);
(3310,3335); (3328,3335); (3311,3336); (3313,3336); (3330,3336); (3298,3337); (3310,3337); (3329,3337); (3335,3337); (3322,3338); (3324,3338); (3334,3338);
(3326,3339); (3330,3339); (3332,3339); (3229,3340); (3258,3340); (3317,3340); (3323,3341); (3324,3341); (3338,3341); (3247,3342); (3263,3342); (3327,3342);
(3320,3343); (3323,3343); (3341,3343); (3332,3344); (3334,3344); (3339,3344); (3265,3345); (3285,3345); (3300,3346); (3313,3346); (3336,3346); (3320,3347);
(3321,3347); (3328,3347); (3343,3347); (3279,3348)].
Definition airfoil_pairs_24 : list (N * N) := [
(3300,3348); (3333,3348); (3346,3348); (3334,3349); (3338,3349); (3344,3349); (3225,3350); (3283,3350); (3296,3350); (3330,3351); (3336,3351); (3339,3351);
(3263,3352); (3287,3352); (3342,3352); (3265,3353); (3286,3353); (3345,3353); (3140,3354); (3168,3354); (2869,3355); (3020,3355); (3338,3356); (3341,3356);
(3349,3356); (3210,3357); (3285,3357); (3315,3357); (3318,3358); (3329,3358); (3339,3359); (3344,3359); (3351,3359); (3344,3360); (3349,3360); (3356,3360);
(3359,3360); (3329,3361); (3337,3361); (3358,3361); (3198,3362); (3274,3362); (3276,3362); (3318,3363); (3331,3363); (3358,3363); (3336,3364); (3346,3364);
(3351,3364); (3328,3365); (3335,3365); (3347,3365); (2722,3366); (2869,3366); (3150,3366); (3355,3366); (3335,3367); (3337,3367); (3361,3367); (3365,3367);
(3341,3368); (3343,3368); (3356,3368); (3258,3369); (3306,3369); (3340,3369); (3331,3370); (3363,3370); (3351,3371); (3359,3371); (3364,3371); (3287,3372);
(3314,3372); (3352,3372); (3356,3373); (3360,3373); (3368,3373); (3166,3374); (3239,3374); (3325,3374); (3359,3375); (3360,3375); (3371,3375); (3373,3375);
(3343,3376); (3347,3376); (3365,3376); (3368,3376); (3276,3377); (3315,3377); (3286,3378); (3317,3378); (3353,3378); (3306,3379); (3327,3379); (3369,3379);
(3358,3380); (3361,3380); (3367,3380); (3296,3381); (3333,3381); (3350,3381); (3285,3382); (3345,3382); (3357,3382); (3365,3383); (3367,3383); (3376,3383);
(3358,3384); (3363,3384); (3380,3384); (3327,3385); (3342,3385); (3379,3385); (3317,3386); (3340,3386); (3378,3386); (3283,3387); (3325,3387); (3350,3387);
(3368,3388); (3373,3388); (3376,3388); (3363,3389); (3370,3389); (3384,3389); (3346,3390); (3348,3390); (3364,3390); (3373,3391); (3375,3391); (3388,3391);
(3367,3392); (3380,3392); (3383,3392); (3345,3393); (3353,3393); (3382,3393); (3333,3394); (3348,3394); (3381,3394); (3390,3394); (3364,3395); (3371,3395);
(3375,3395); (3390,3395); (3391,3395); (3342,3396); (3352,3396); (3385,3396); (3376,3397); (3383,3397); (3388,3397); (3370,3398); (3389,3398); (3315,3399);
(3357,3399); (3377,3399); (2984,3400); (3135,3400); (3278,3400); (3276,3401); (3362,3401); (3377,3401); (3340,3402); (3369,3402); (3386,3402); (3380,3403);
(3384,3403); (3392,3403); (3383,3404); (3392,3404); (3397,3404); (3352,3405); (3372,3405); (3396,3405); (3239,3406); (3252,3406); (3374,3406); (3020,3407);
(3274,3407); (3355,3407); (3168,3408); (3218,3408); (3354,3408); (3388,3409); (3391,3409); (3397,3409); (3353,3410); (3378,3410); (3393,3410); (3357,3411);
(3382,3411); (3399,3411); (3369,3412); (3379,3412); (3402,3412); (3391,3413); (3395,3413); (3409,3413); (3384,3414); (3389,3414); (3403,3414); (3135,3415);
(3140,3415); (3354,3415); (3389,3416); (3398,3416); (3414,3416); (3390,3417); (3395,3417); (3413,3417); (3379,3418); (3385,3418); (3412,3418); (3378,3419);
(3386,3419); (3410,3419); (3350,3420); (3381,3420); (3387,3420); (3398,3421); (3416,3421); (3392,3422); (3403,3422); (3404,3422); (3377,3423); (3399,3423);
(3401,3423); (3362,3424); (3401,3424); (3382,3425); (3393,3425); (3411,3425); (3385,3426); (3396,3426); (3418,3426); (3390,3427); (3394,3427); (3417,3427);
(3325,3428); (3374,3428); (3387,3428); (3274,3429); (3362,3429); (3424,3429); (3381,3430); (3394,3430); (3420,3430); (3427,3430); (3397,3431); (3404,3431);
(3409,3431); (3422,3431); (3386,3432); (3402,3432); (3419,3432); (3409,3433); (3413,3433); (3431,3433); (3403,3434); (3414,3434); (3422,3434); (3396,3435);
(3405,3435); (3426,3435); (3399,3436); (3411,3436); (3423,3436); (3274,3437); (3407,3437); (3429,3437); (3413,3438); (3417,3438); (3433,3438); (3393,3439);
(3410,3439); (3425,3439); (3218,3440); (3252,3440); (3406,3440); (3408,3440); (3402,3441); (3412,3441); (3432,3441); (3421,3442); (3416,3443); (3421,3443);
(3442,3443); (3414,3444); (3416,3444); (3434,3444); (3443,3444); (3401,3445); (3423,3445); (3424,3445); (3417,3446); (3427,3446); (3438,3446); (3410,3447);
(3419,3447); (3439,3447); (3412,3448); (3418,3448); (3441,3448); (3411,3449); (3425,3449); (3436,3449); (3418,3450); (3426,3450); (3448,3450); (3374,3451);
(3406,3451); (3428,3451); (3387,3452); (3420,3452); (3428,3452); (3433,3453); (3438,3453); (3427,3454); (3430,3454); (3446,3454); (3419,3455); (3432,3455);
(3447,3455); (3438,3456); (3446,3456); (3453,3456); (3424,3457); (3429,3457); (3445,3457); (3442,3458); (3422,3459); (3431,3459); (3434,3459); (3431,3460);
(3433,3460); (3453,3460); (3459,3460); (3423,3461); (3436,3461); (3445,3461); (3426,3462); (3435,3462); (3450,3462); (3442,3463); (3443,3463); (3458,3463);
(3425,3464); (3439,3464); (3449,3464); (3432,3465); (3441,3465); (3455,3465); (3429,3466); (3437,3466); (3457,3466); (3443,3467); (3444,3467); (3463,3467);
(3434,3468); (3444,3468); (3459,3468); (3467,3468); (3135,3469); (3400,3469); (3415,3469); (2154,3470); (3162,3470); (3439,3471); (3447,3471); (3464,3471);
(3441,3472); (3448,3472); (3465,3472); (3446,3473); (3454,3473); (3456,3473); (3436,3474); (3449,3474); (3461,3474); (3420,3475); (3430,3475); (3452,3475);
(3454,3475); (3354,3476); (3408,3476); (3415,3476); (3448,3477); (3450,3477); (3472,3477); (3458,3478); (1931,3479); (2766,3479); (3447,3480); (3455,3480);
(3471,3480); (3445,3481); (3457,3481); (3461,3481)].
Definition airfoil_pairs_25 : list (N * N) := [
(3458,3482); (3463,3482); (3478,3482); (3453,3483); (3456,3483); (3460,3483); (3450,3484); (3462,3484); (3477,3484); (3428,3485); (3451,3485); (3452,3485);
(3456,3486); (3473,3486); (3483,3486); (3449,3487); (3464,3487); (3474,3487); (3455,3488); (3465,3488); (3480,3488); (3463,3489); (3467,3489); (3482,3489);
(3459,3490); (3460,3490); (3483,3490); (3459,3491); (3468,3491); (3490,3491); (3467,3492); (3468,3492); (3489,3492); (3491,3492); (3465,3493); (3472,3493);
(3488,3493); (3464,3494); (3471,3494); (3487,3494); (3457,3495); (3466,3495); (3481,3495); (3437,3496); (3466,3496); (3478,3497); (3472,3498); (3477,3498);
(3493,3498); (3454,3499); (3473,3499); (3475,3499); (3486,3499); (3478,3500); (3482,3500); (3497,3500); (3407,3501); (3437,3501); (3496,3501); (3461,3502);
(3474,3502); (3481,3502); (3471,3503); (3480,3503); (3494,3503); (3477,3504); (3484,3504); (3498,3504); (3482,3505); (3489,3505); (3500,3505); (3452,3506);
(3475,3506); (3485,3506); (3406,3507); (3440,3507); (3451,3507); (3474,3508); (3487,3508); (3502,3508); (3483,3509); (3486,3509); (3499,3509); (3480,3510);
(3488,3510); (3503,3510); (3355,3511); (3407,3511); (3501,3511); (3497,3512); (3489,3513); (3492,3513); (3505,3513); (3481,3514); (3495,3514); (3502,3514);
(3487,3515); (3494,3515); (3508,3515); (3488,3516); (3493,3516); (3510,3516); (3408,3517); (3440,3517); (3476,3517); (3491,3518); (3492,3518); (3513,3518);
(3497,3519); (3500,3519); (3512,3519); (3483,3520); (3490,3520); (3509,3520); (3493,3521); (3498,3521); (3516,3521); (3466,3522); (3495,3522); (3496,3522);
(3490,3523); (3491,3523); (3518,3523); (3520,3523); (3475,3524); (3499,3524); (3506,3524); (3494,3525); (3503,3525); (3515,3525); (3502,3526); (3508,3526);
(3500,3527); (3505,3527); (3519,3527); (3092,3528); (3150,3528); (3415,3529); (3469,3529); (3476,3529); (3498,3530); (3504,3530); (3521,3530); (3512,3531);
(3503,3532); (3510,3532); (3525,3532); (3508,3533); (3515,3533); (3526,3533); (3505,3534); (3513,3534); (3527,3534); (3499,3535); (3509,3535); (3524,3535);
(3150,3536); (3366,3536); (3528,3536); (3451,3537); (3485,3537); (3507,3537); (3355,3538); (3366,3538); (3511,3538); (3510,3539); (3516,3539); (3532,3539);
(3512,3540); (3519,3540); (3531,3540); (3513,3541); (3518,3541); (3534,3541); (3495,3542); (3514,3542); (3522,3542); (3516,3543); (3521,3543); (3539,3543);
(3502,3544); (3514,3544); (3526,3544); (3519,3545); (3527,3545); (3540,3545); (3515,3546); (3525,3546); (3533,3546); (3531,3547); (3509,3548); (3520,3548);
(3535,3548); (3518,3549); (3523,3549); (3541,3549); (3485,3550); (3506,3550); (3537,3550); (3400,3551); (3469,3551); (3521,3552); (3530,3552); (3543,3552);
(3526,3553); (3533,3553); (3544,3553); (3525,3554); (3532,3554); (3546,3554); (3527,3555); (3534,3555); (3545,3555); (3531,3556); (3540,3556); (3547,3556);
(3520,3557); (3523,3557); (3548,3557); (3549,3557); (3534,3558); (3541,3558); (3555,3558); (3532,3559); (3539,3559); (3554,3559); (3440,3560); (3507,3560);
(3517,3560); (3514,3561); (3542,3561); (3544,3561); (3506,3562); (3524,3562); (3550,3562); (3547,3563); (3539,3564); (3543,3564); (3559,3564); (3540,3565);
(3545,3565); (3556,3565); (3083,3566); (3092,3566); (3528,3566); (3496,3567); (3501,3567); (3522,3567); (3533,3568); (3546,3568); (3553,3568); (3541,3569);
(3549,3569); (3558,3569); (3278,3570); (3400,3570); (3551,3570); (3544,3571); (3553,3571); (3561,3571); (3547,3572); (3556,3572); (3563,3572); (3524,3573);
(3535,3573); (3562,3573); (3546,3574); (3554,3574); (3568,3574); (3545,3575); (3555,3575); (3565,3575); (3543,3576); (3552,3576); (3564,3576); (3501,3577);
(3511,3577); (3567,3577); (3522,3578); (3542,3578); (3567,3578); (3535,3579); (3548,3579); (3573,3579); (3476,3580); (3517,3580); (3529,3580); (3555,3581);
(3558,3581); (3575,3581); (3554,3582); (3559,3582); (3574,3582); (3563,3583); (3549,3584); (3557,3584); (3569,3584); (3556,3585); (3565,3585); (3572,3585);
(3507,3586); (3537,3586); (3560,3586); (3559,3587); (3564,3587); (3582,3587); (3558,3588); (3569,3588); (3581,3588); (3553,3589); (3568,3589); (3571,3589);
(3548,3590); (3557,3590); (3579,3590); (3584,3590); (3469,3591); (3529,3591); (3551,3591); (3542,3592); (3561,3592); (3578,3592); (3563,3593); (3572,3593);
(3583,3593); (3537,3594); (3550,3594); (3586,3594); (3565,3595); (3575,3595); (3585,3595); (3568,3596); (3574,3596); (3589,3596); (3564,3597); (3576,3597);
(3587,3597); (3561,3598); (3571,3598); (3592,3598); (3583,3599); (3550,3600); (3562,3600); (3594,3600); (3575,3601); (3581,3601); (3595,3601); (3366,3602);
(3536,3602); (3538,3602); (3569,3603); (3584,3603); (3588,3603); (3574,3604); (3582,3604); (3596,3604); (3572,3605); (3585,3605); (3593,3605); (3562,3606);
(3573,3606); (3600,3606); (3511,3607); (3538,3607); (3577,3607); (3067,3608); (3278,3608); (3570,3608); (3581,3609); (3588,3609); (3601,3609); (3582,3610);
(3587,3610); (3604,3610); (3571,3611); (3589,3611); (3598,3611); (3583,3612); (3593,3612); (3599,3612); (2766,3613); (3067,3613); (3479,3613); (3608,3613);
(3585,3614); (3595,3614); (3605,3614); (3599,3615); (3588,3616); (3603,3616); (3609,3616); (3589,3617); (3596,3617); (3611,3617); (3573,3618); (3579,3618);
(3606,3618); (3567,3619); (3578,3619); (3587,3620)].
Definition airfoil_pairs_26 : list (N * N) := [
(3597,3620); (3610,3620); (3567,3621); (3577,3621); (3619,3621); (3595,3622); (3601,3622); (3614,3622); (3593,3623); (3605,3623); (3612,3623); (3596,3624);
(3604,3624); (3617,3624); (3578,3625); (3592,3625); (3619,3625); (3599,3626); (3612,3626); (3615,3626); (3592,3627); (3598,3627); (3625,3627); (3601,3628);
(3609,3628); (3622,3628); (3584,3629); (3590,3629); (3603,3629); (3604,3630); (3610,3630); (3624,3630); (3615,3631); (3598,3632); (3611,3632); (3627,3632);
(3517,3633); (3560,3633); (3580,3633); (3609,3634); (3616,3634); (3628,3634); (3605,3635); (3614,3635); (3623,3635); (3579,3636); (3590,3636); (3618,3636);
(3629,3636); (3611,3637); (3617,3637); (3632,3637); (3603,3638); (3616,3638); (3629,3638); (3634,3638); (3612,3639); (3623,3639); (3626,3639); (3610,3640);
(3620,3640); (3630,3640); (3614,3641); (3622,3641); (3635,3641); (3615,3642); (3626,3642); (3631,3642); (3617,3643); (3624,3643); (3637,3643); (3538,3644);
(3602,3644); (3607,3644); (3529,3645); (3580,3645); (3591,3645); (3631,3646); (3586,3647); (3594,3647); (3624,3648); (3630,3648); (3643,3648); (3622,3649);
(3628,3649); (3641,3649); (3560,3650); (3586,3650); (3633,3650); (3647,3650); (3623,3651); (3635,3651); (3639,3651); (3625,3652); (3627,3652); (3628,3653);
(3634,3653); (3649,3653); (3626,3654); (3639,3654); (3642,3654); (3594,3655); (3600,3655); (3647,3655); (3619,3656); (3625,3656); (3652,3656); (3627,3657);
(3632,3657); (3652,3657); (3631,3658); (3642,3658); (3646,3658); (3551,3659); (3570,3659); (3591,3659); (3630,3660); (3640,3660); (3648,3660); (3632,3661);
(3637,3661); (3657,3661); (3635,3662); (3641,3662); (3651,3662); (3634,3663); (3638,3663); (3653,3663); (3083,3664); (3162,3664); (3566,3664); (3600,3665);
(3606,3665); (3618,3665); (3655,3665); (3646,3666); (3637,3667); (3643,3667); (3661,3667); (3629,3668); (3638,3668); (3663,3668); (3619,3669); (3621,3669);
(3656,3669); (3577,3670); (3607,3670); (3621,3670); (3639,3671); (3651,3671); (3654,3671); (3643,3672); (3648,3672); (3667,3672); (3642,3673); (3654,3673);
(3658,3673); (3641,3674); (3649,3674); (3662,3674); (3646,3675); (3658,3675); (3666,3675); (3629,3676); (3636,3676); (3668,3676); (3652,3677); (3657,3677);
(3651,3678); (3662,3678); (3671,3678); (3666,3679); (3648,3680); (3660,3680); (3672,3680); (3657,3681); (3661,3681); (3677,3681); (3649,3682); (3653,3682);
(3674,3682); (3652,3683); (3656,3683); (3677,3683); (3607,3684); (3644,3684); (3670,3684); (3661,3685); (3667,3685); (3681,3685); (3653,3686); (3663,3686);
(3682,3686); (3654,3687); (3671,3687); (3673,3687); (3658,3688); (3673,3688); (3675,3688); (3667,3689); (3672,3689); (3685,3689); (3666,3690); (3675,3690);
(3679,3690); (3662,3691); (3674,3691); (3678,3691); (3663,3692); (3668,3692); (3686,3692); (3677,3693); (3681,3693); (3618,3694); (3636,3694); (3665,3694);
(3676,3694); (3679,3695); (3671,3696); (3678,3696); (3687,3696); (3656,3697); (3669,3697); (3683,3697); (3621,3698); (3669,3698); (3670,3698); (3672,3699);
(3680,3699); (3689,3699); (3536,3700); (3602,3700); (3681,3701); (3685,3701); (3693,3701); (3528,3702); (3536,3702); (3700,3702); (3673,3703); (3687,3703);
(3688,3703); (3675,3704); (3688,3704); (3690,3704); (3674,3705); (3682,3705); (3691,3705); (3677,3706); (3683,3706); (3693,3706); (3679,3707); (3690,3707);
(3695,3707); (3685,3708); (3689,3708); (3701,3708); (3580,3709); (3633,3709); (3645,3709); (3678,3710); (3691,3710); (3696,3710); (3695,3711); (3687,3712);
(3696,3712); (3703,3712); (3668,3713); (3676,3713); (3692,3713); (3682,3714); (3686,3714); (3705,3714); (3570,3715); (3608,3715); (3659,3715); (3693,3716);
(3701,3716); (3706,3716); (3647,3717); (3650,3717); (3602,3718); (3644,3718); (3700,3718); (3686,3719); (3692,3719); (3713,3719); (3714,3719); (3683,3720);
(3697,3720); (3706,3720); (3689,3721); (3699,3721); (3708,3721); (3669,3722); (3697,3722); (3698,3722); (3688,3723); (3703,3723); (3704,3723); (3690,3724);
(3704,3724); (3707,3724); (3695,3725); (3707,3725); (3711,3725); (3701,3726); (3708,3726); (3716,3726); (3644,3727); (3684,3727); (3718,3727); (3633,3728);
(3650,3728); (3709,3728); (3717,3728); (3591,3729); (3645,3729); (3659,3729); (3691,3730); (3705,3730); (3710,3730); (3696,3731); (3710,3731); (3712,3731);
(3711,3732); (3703,3733); (3712,3733); (3723,3733); (3647,3734); (3655,3734); (3717,3734); (3706,3735); (3716,3735); (3720,3735); (3670,3736); (3684,3736);
(3655,3737); (3665,3737); (3694,3737); (3734,3737); (3704,3738); (3723,3738); (3724,3738); (3708,3739); (3721,3739); (3726,3739); (3697,3740); (3720,3740);
(3722,3740); (3670,3741); (3698,3741); (3736,3741); (3707,3742); (3724,3742); (3725,3742); (3676,3743); (3694,3743); (3713,3743); (3711,3744); (3725,3744);
(3732,3744); (3528,3745); (3566,3745); (3702,3745); (3716,3746); (3726,3746); (3735,3746); (3705,3747); (3714,3747); (3730,3747); (3712,3748); (3731,3748);
(3733,3748); (3710,3749); (3730,3749); (3731,3749); (3732,3750); (3723,3751); (3733,3751); (3738,3751); (3698,3752); (3722,3752); (3741,3752); (3714,3753);
(3719,3753); (3747,3753); (3720,3754); (3735,3754); (3740,3754); (3713,3755); (3719,3755); (3743,3755); (3753,3755); (3724,3756); (3738,3756); (3742,3756);
(3725,3757); (3742,3757); (3744,3757); (3726,3758)].
Definition airfoil_pairs_27 : list (N * N) := [
(3739,3758); (3746,3758); (3732,3759); (3744,3759); (3750,3759); (3684,3760); (3727,3760); (3736,3760); (3731,3761); (3748,3761); (3749,3761); (3733,3762);
(3748,3762); (3751,3762); (3722,3763); (3740,3763); (3752,3763); (3750,3764); (3735,3765); (3746,3765); (3754,3765); (3738,3766); (3751,3766); (3756,3766);
(3730,3767); (3747,3767); (3749,3767); (3742,3768); (3756,3768); (3757,3768); (3744,3769); (3757,3769); (3759,3769); (3740,3770); (3754,3770); (3763,3770);
(3750,3771); (3759,3771); (3764,3771); (3748,3772); (3761,3772); (3762,3772); (3659,3773); (3715,3773); (3729,3773); (3746,3774); (3758,3774); (3765,3774);
(3736,3775); (3741,3775); (3751,3776); (3762,3776); (3766,3776); (3764,3777); (3694,3778); (3737,3778); (3743,3778); (3741,3779); (3752,3779); (3775,3779);
(3749,3780); (3761,3780); (3767,3780); (3756,3781); (3766,3781); (3768,3781); (3754,3782); (3765,3782); (3770,3782); (3747,3783); (3753,3783); (3767,3783);
(3752,3784); (3763,3784); (3779,3784); (3757,3785); (3768,3785); (3769,3785); (3717,3786); (3728,3786); (3759,3787); (3769,3787); (3771,3787); (3736,3788);
(3760,3788); (3775,3788); (3700,3789); (3718,3789); (3762,3790); (3772,3790); (3776,3790); (3717,3791); (3734,3791); (3786,3791); (3764,3792); (3771,3792);
(3777,3792); (3761,3793); (3772,3793); (3780,3793); (3718,3794); (3727,3794); (3789,3794); (3777,3795); (3763,3796); (3770,3796); (3784,3796); (3766,3797);
(3776,3797); (3781,3797); (3765,3798); (3774,3798); (3782,3798); (3768,3799); (3781,3799); (3785,3799); (3727,3800); (3760,3800); (3794,3800); (3772,3801);
(3790,3801); (3793,3801); (3769,3802); (3785,3802); (3787,3802); (3743,3803); (3755,3803); (3778,3803); (3700,3804); (3702,3804); (3789,3804); (3753,3805);
(3755,3805); (3783,3805); (3803,3805); (3771,3806); (3787,3806); (3792,3806); (3770,3807); (3782,3807); (3796,3807); (3734,3808); (3737,3808); (3791,3808);
(3776,3809); (3790,3809); (3797,3809); (3775,3810); (3779,3810); (3777,3811); (3792,3811); (3795,3811); (3767,3812); (3780,3812); (3783,3812); (3645,3813);
(3709,3813); (3729,3813); (3775,3814); (3788,3814); (3810,3814); (3779,3815); (3784,3815); (3810,3815); (3709,3816); (3728,3816); (3786,3816); (3813,3816);
(3785,3817); (3799,3817); (3802,3817); (3795,3818); (3760,3819); (3788,3819); (3800,3819); (3781,3820); (3797,3820); (3799,3820); (3608,3821); (3715,3821);
(3790,3822); (3801,3822); (3809,3822); (3780,3823); (3793,3823); (3812,3823); (3787,3824); (3802,3824); (3806,3824); (3782,3825); (3798,3825); (3807,3825);
(3784,3826); (3796,3826); (3815,3826); (3793,3827); (3801,3827); (3822,3827); (3823,3827); (3788,3828); (3814,3828); (3819,3828); (3792,3829); (3806,3829);
(3811,3829); (3796,3830); (3807,3830); (3826,3830); (3795,3831); (3811,3831); (3818,3831); (3802,3832); (3817,3832); (3824,3832); (3715,3833); (3773,3833);
(3821,3833); (3797,3834); (3809,3834); (3820,3834); (3566,3835); (3664,3835); (3745,3835); (3737,3836); (3778,3836); (3808,3836); (3799,3837); (3817,3837);
(3820,3837); (3818,3838); (3810,3839); (3814,3839); (3806,3840); (3824,3840); (3829,3840); (3810,3841); (3815,3841); (3839,3841); (3809,3842); (3822,3842);
(3834,3842); (3783,3843); (3805,3843); (3812,3843); (3814,3844); (3828,3844); (3839,3844); (3807,3845); (3825,3845); (3830,3845); (3815,3846); (3826,3846);
(3841,3846); (3811,3847); (3829,3847); (3831,3847); (3817,3848); (3832,3848); (3837,3848); (3824,3849); (3832,3849); (3840,3849); (3822,3850); (3827,3850);
(3842,3850); (3812,3851); (3823,3851); (3843,3851); (3819,3852); (3828,3852); (3844,3852); (3818,3853); (3831,3853); (3838,3853); (3786,3854); (3791,3854);
(3816,3854); (3162,3855); (3470,3855); (3664,3855); (3823,3856); (3827,3856); (3850,3856); (3851,3856); (3702,3857); (3745,3857); (3804,3857); (3820,3858);
(3834,3858); (3837,3858); (3826,3859); (3830,3859); (3846,3859); (3800,3860); (3819,3860); (3838,3861); (3789,3862); (3794,3862); (3819,3863); (3852,3863);
(3860,3863); (3778,3864); (3803,3864); (3836,3864); (3832,3865); (3848,3865); (3849,3865); (3829,3866); (3840,3866); (3847,3866); (3794,3867); (3800,3867);
(3860,3867); (3862,3867); (3803,3868); (3805,3868); (3864,3868); (3729,3869); (3773,3869); (3813,3869); (3839,3870); (3844,3870); (3839,3871); (3841,3871);
(3870,3871); (3830,3872); (3845,3872); (3859,3872); (3831,3873); (3847,3873); (3853,3873); (3834,3874); (3842,3874); (3858,3874); (3837,3875); (3848,3875);
(3858,3875); (3840,3876); (3849,3876); (3866,3876); (3844,3877); (3852,3877); (3870,3877); (3841,3878); (3846,3878); (3871,3878); (3838,3879); (3853,3879);
(3861,3879); (3791,3880); (3808,3880); (3854,3880); (3852,3881); (3863,3881); (3877,3881); (3479,3882); (3861,3883); (3842,3884); (3850,3884); (3874,3884);
(3846,3885); (3859,3885); (3878,3885); (3608,3886); (3613,3886); (3821,3886); (3848,3887); (3865,3887); (3875,3887); (3849,3888); (3865,3888); (3876,3888);
(3847,3889); (3866,3889); (3873,3889); (3805,3890); (3843,3890); (3868,3890); (3850,3891); (3856,3891); (3884,3891); (3789,3892); (3804,3892); (3862,3892);
(3865,3893); (3887,3893); (3888,3893); (3851,3894); (3856,3894); (3891,3894); (3859,3895); (3872,3895); (3885,3895); (3853,3896); (3873,3896); (3879,3896);
(3843,3897); (3851,3897); (3890,3897); (3894,3897)].
Definition airfoil_pairs_28 : list (N * N) := [
(3861,3898); (3879,3898); (3883,3898); (3870,3899); (3871,3899); (3866,3900); (3876,3900); (3889,3900); (3858,3901); (3874,3901); (3875,3901); (3871,3902);
(3878,3902); (3899,3902); (3870,3903); (3877,3903); (3899,3903); (3883,3904); (3860,3905); (3863,3905); (3878,3906); (3885,3906); (3902,3906); (3877,3907);
(3881,3907); (3903,3907); (3876,3908); (3888,3908); (3900,3908); (3862,3909); (3867,3909); (3808,3910); (3836,3910); (3880,3910); (3888,3911); (3893,3911);
(3908,3911); (3863,3912); (3881,3912); (3905,3912); (3907,3912); (3875,3913); (3887,3913); (3901,3913); (3873,3914); (3889,3914); (3896,3914); (3860,3915);
(3867,3915); (3905,3915); (3909,3915); (3887,3916); (3893,3916); (3911,3916); (3913,3916); (3816,3917); (3854,3917); (3885,3918); (3895,3918); (3906,3918);
(3874,3919); (3884,3919); (3901,3919); (3883,3920); (3898,3920); (3904,3920); (3879,3921); (3896,3921); (3898,3921); (3773,3922); (3833,3922); (3869,3922);
(3904,3923); (3884,3924); (3891,3924); (3919,3924); (3899,3925); (3902,3925); (3899,3926); (3903,3926); (3925,3926); (3889,3927); (3900,3927); (3914,3927);
(3902,3928); (3906,3928); (3925,3928); (3891,3929); (3894,3929); (3924,3929); (3903,3930); (3907,3930); (3926,3930); (3813,3931); (3816,3931); (3917,3931);
(3836,3932); (3864,3932); (3910,3932); (3900,3933); (3908,3933); (3927,3933); (3904,3934); (3920,3934); (3923,3934); (3864,3935); (3868,3935); (3932,3935);
(3906,3936); (3918,3936); (3928,3936); (3911,3937); (3916,3937); (3854,3938); (3880,3938); (3917,3938); (3913,3939); (3916,3939); (3937,3939); (3896,3940);
(3914,3940); (3921,3940); (3908,3941); (3911,3941); (3933,3941); (3937,3941); (3923,3942); (3898,3943); (3920,3943); (3921,3943); (3894,3944); (3897,3944);
(3929,3944); (3901,3945); (3913,3945); (3919,3945); (3939,3945); (3907,3946); (3912,3946); (3930,3946); (3925,3947); (3926,3947); (3745,3948); (3835,3948);
(3857,3948); (3925,3949); (3928,3949); (3947,3949); (3862,3950); (3892,3950); (3909,3950); (3868,3951); (3890,3951); (3935,3951); (3804,3952); (3857,3952);
(3892,3952); (3926,3953); (3930,3953); (3947,3953); (3923,3954); (3934,3954); (3942,3954); (3914,3955); (3927,3955); (3940,3955); (3905,3956); (3912,3956);
(3946,3956); (3909,3957); (3915,3957); (3950,3957); (3890,3958); (3897,3958); (3944,3958); (3951,3958); (3928,3959); (3936,3959); (3949,3959); (3905,3960);
(3915,3960); (3956,3960); (3957,3960); (3942,3961); (3920,3962); (3934,3962); (3943,3962); (3921,3963); (3940,3963); (3943,3963); (3937,3964); (3939,3964);
(3813,3965); (3869,3965); (3931,3965); (3939,3966); (3945,3966); (3964,3966); (3930,3967); (3946,3967); (3953,3967); (3924,3968); (3929,3968); (3947,3969);
(3949,3969); (3942,3970); (3954,3970); (3961,3970); (3927,3971); (3933,3971); (3955,3971); (3821,3972); (3833,3972); (3922,3972); (3937,3973); (3941,3973);
(3964,3973); (3947,3974); (3953,3974); (3969,3974); (3949,3975); (3959,3975); (3969,3975); (3961,3976); (3919,3977); (3924,3977); (3968,3977); (3929,3978);
(3944,3978); (3968,3978); (3933,3979); (3941,3979); (3971,3979); (3973,3979); (3934,3980); (3954,3980); (3962,3980); (3953,3981); (3967,3981); (3974,3981);
(3940,3982); (3955,3982); (3963,3982); (3919,3983); (3945,3983); (3966,3983); (3977,3983); (3969,3984); (3974,3984); (3961,3985); (3970,3985); (3976,3985);
(3880,3986); (3910,3986); (3938,3986); (3969,3987); (3975,3987); (3984,3987); (3943,3988); (3962,3988); (3963,3988); (3976,3989); (3974,3990); (3981,3990);
(3984,3990); (3954,3991); (3970,3991); (3980,3991); (3984,3992); (3990,3992); (3946,3993); (3956,3993); (3967,3993); (3984,3994); (3987,3994); (3992,3994);
(3989,3995); (3944,3996); (3958,3996); (3978,3996); (3995,3997); (3976,3998); (3985,3998); (3989,3998); (3992,3999); (3994,3999); (3997,3999); (3964,4000);
(3966,4000); (3973,4000); (3970,4001); (3985,4001); (3991,4001); (3955,4002); (3971,4002); (3982,4002); (3962,4003); (3980,4003); (3988,4003); (3917,4004);
(3931,4004); (3938,4004); (3963,4005); (3982,4005); (3988,4005); (3956,4006); (3960,4006); (3993,4006); (3985,4007); (3998,4007); (4001,4007); (3967,4008);
(3981,4008); (3993,4008); (3981,4009); (3990,4009); (3992,4009); (3999,4009); (4008,4009); (3957,4010); (3960,4010); (4006,4010); (3910,4011); (3932,4011);
(3986,4011); (3989,4012); (3995,4012); (3997,4012); (3998,4012); (3966,4013); (3983,4013); (4000,4013); (3971,4014); (3979,4014); (4002,4014); (3892,4015);
(3950,4015); (3952,4015); (3973,4016); (3979,4016); (4000,4016); (4014,4016); (3980,4017); (3991,4017); (4003,4017); (3950,4018); (3957,4018); (4010,4018);
(4015,4018); (3869,4019); (3922,4019); (3965,4019); (3968,4020); (3977,4020); (3978,4020); (3664,4021); (3835,4021); (3855,4021); (3857,4022); (3948,4022);
(3952,4022); (3991,4023); (4001,4023); (4017,4023); (3998,4024); (4007,4024); (4012,4024); (3988,4025); (4003,4025); (4005,4025); (3951,4026); (3958,4026);
(3996,4026); (4001,4027); (4007,4027); (4023,4027); (4024,4027); (3932,4028); (3935,4028); (4011,4028); (3982,4029); (4002,4029); (4005,4029); (3977,4030);
(3983,4030); (4013,4030); (4020,4030); (3978,4031); (3996,4031); (4020,4031); (3479,4032); (3613,4032); (3882,4032); (3886,4032); (3997,4033); (3999,4033);
(4009,4033); (4012,4033); (4003,4034); (4017,4034)].
Definition airfoil_pairs_29 : list (N * N) := [
(4025,4034); (4012,4035); (4024,4035); (4033,4035); (3938,4036); (3986,4036); (4004,4036); (4017,4037); (4023,4037); (4034,4037); (3993,4038); (4006,4038);
(4008,4038); (3935,4039); (3951,4039); (4026,4039); (4028,4039); (4002,4040); (4014,4040); (4029,4040); (4005,4041); (4025,4041); (4029,4041); (4023,4042);
(4027,4042); (4037,4042); (4024,4043); (4027,4043); (4035,4043); (4042,4043); (4000,4044); (4013,4044); (4016,4044); (3931,4045); (3965,4045); (4004,4045);
(4006,4046); (4010,4046); (4038,4046); (4008,4047); (4009,4047); (4033,4047); (4038,4047); (3996,4048); (4026,4048); (4031,4048); (4014,4049); (4016,4049);
(4040,4049); (4044,4049); (3952,4050); (4015,4050); (4022,4050); (4010,4051); (4018,4051); (4046,4051); (4033,4052); (4035,4052); (4047,4052); (3821,4053);
(3886,4053); (3972,4053); (3922,4054); (3972,4054); (4019,4054); (4025,4055); (4034,4055); (4041,4055); (4013,4056); (4030,4056); (4044,4056); (4029,4057);
(4040,4057); (4041,4057); (4020,4058); (4031,4058); (4048,4058); (4035,4059); (4043,4059); (4052,4059); (3986,4060); (4011,4060); (4036,4060); (4034,4061);
(4037,4061); (4055,4061); (4037,4062); (4042,4062); (4061,4062); (4042,4063); (4043,4063); (4059,4063); (4062,4063); (4020,4064); (4030,4064); (4056,4064);
(4058,4064); (4011,4065); (4028,4065); (4060,4065); (4038,4066); (4046,4066); (3835,4067); (3948,4067); (4021,4067); (4015,4068); (4018,4068); (4051,4068);
(4046,4069); (4051,4069); (4066,4069); (4047,4070); (4052,4070); (4038,4071); (4047,4071); (4066,4071); (4070,4071); (4026,4072); (4039,4072); (4048,4072);
(3965,4073); (4019,4073); (4045,4073); (4041,4074); (4055,4074); (4057,4074); (4040,4075); (4049,4075); (4057,4075); (4052,4076); (4059,4076); (4070,4076);
(4015,4077); (4050,4077); (4068,4077); (4028,4078); (4039,4078); (4065,4078); (4059,4079); (4063,4079); (4076,4079); (4004,4080); (4036,4080); (4045,4080);
(4055,4081); (4061,4081); (4074,4081); (4062,4082); (4063,4082); (4079,4082); (3948,4083); (4022,4083); (4067,4083); (4044,4084); (4056,4084); (4044,4085);
(4049,4085); (4075,4085); (4084,4085); (4061,4086); (4062,4086); (4081,4086); (4082,4086); (4022,4087); (4050,4087); (4083,4087); (4066,4088); (4069,4088);
(4048,4089); (4058,4089); (4072,4089); (4056,4090); (4064,4090); (4084,4090); (4070,4091); (4076,4091); (4070,4092); (4071,4092); (4091,4092); (4057,4093);
(4074,4093); (4075,4093); (4051,4094); (4068,4094); (4069,4094); (4088,4094); (4066,4095); (4071,4095); (4088,4095); (4092,4095); (4058,4096); (4064,4096);
(4089,4096); (4090,4096); (4076,4097); (4079,4097); (4091,4097); (4050,4098); (4077,4098); (4087,4098); (4019,4099); (4054,4099); (4073,4099); (4039,4100);
(4072,4100); (4078,4100); (4079,4101); (4082,4101); (4097,4101); (4074,4102); (4081,4102); (4093,4102); (3470,4103); (3855,4103); (3972,4104); (4053,4104);
(4054,4104); (4068,4105); (4077,4105); (4094,4105); (4060,4106); (4065,4106); (4078,4106); (4088,4107); (4095,4107); (4082,4108); (4086,4108); (4101,4108);
(4091,4109); (4092,4109); (4097,4109); (4045,4110); (4073,4110); (4080,4110); (4081,4111); (4086,4111); (4102,4111); (4108,4111); (4075,4112); (4085,4112);
(4093,4112); (4092,4113); (4095,4113); (4107,4113); (4109,4113); (4036,4114); (4060,4114); (4080,4114); (4106,4114); (4084,4115); (4090,4115); (4088,4116);
(4094,4116); (4107,4116); (4077,4117); (4098,4117); (4105,4117); (4097,4118); (4101,4118); (4109,4118); (4084,4119); (4085,4119); (4112,4119); (4115,4119);
(4072,4120); (4089,4120); (4100,4120); (4090,4121); (4096,4121); (4115,4121); (4054,4122); (4099,4122); (4104,4122); (4089,4123); (4096,4123); (4120,4123);
(4121,4123); (4093,4124); (4102,4124); (4112,4124); (4087,4125); (4098,4125); (4117,4125); (4109,4126); (4113,4126); (4118,4126); (4073,4127); (4099,4127);
(4110,4127); (4107,4128); (4113,4128); (4116,4128); (4126,4128); (4101,4129); (4108,4129); (4118,4129); (4094,4130); (4105,4130); (4116,4130); (4078,4131);
(4100,4131); (4106,4131); (4102,4132); (4111,4132); (4124,4132); (4108,4133); (4111,4133); (4129,4133); (4132,4133); (4105,4134); (4117,4134); (4130,4134);
(4080,4135); (4110,4135); (4114,4135); (4083,4136); (4087,4136); (4125,4136); (4115,4137); (4121,4137); (4121,4138); (4123,4138); (4137,4138); (4099,4139);
(4122,4139); (4127,4139); (4117,4140); (4125,4140); (4134,4140); (4118,4141); (4126,4141); (4129,4141); (4112,4142); (4119,4142); (4124,4142); (4116,4143);
(4128,4143); (4130,4143); (3886,4144); (4032,4144); (4053,4144); (4115,4145); (4119,4145); (4137,4145); (4142,4145); (4100,4146); (4120,4146); (4131,4146);
(4120,4147); (4123,4147); (4138,4147); (4146,4147); (4106,4148); (4114,4148); (4131,4148); (4067,4149); (4083,4149); (4136,4149); (4110,4150); (4127,4150);
(4135,4150); (4126,4151); (4128,4151); (4141,4151); (4143,4151); (4124,4152); (4132,4152); (4142,4152); (4129,4153); (4133,4153); (4141,4153); (3855,4154);
(4021,4154); (4103,4154); (4132,4155); (4133,4155); (4152,4155); (4153,4155); (4130,4156); (4134,4156); (4143,4156); (4021,4157); (4067,4157); (4149,4157);
(4154,4157); (4125,4158); (4136,4158); (4140,4158); (4127,4159); (4139,4159); (4150,4159); (4137,4160); (4138,4160); (4145,4160); (4134,4161); (4140,4161);
(4156,4161); (4158,4161); (4114,4162); (4135,4162)].
Definition airfoil_pairs_30 : list (N * N) := [
(4148,4162); (4053,4163); (4104,4163); (4144,4163); (4104,4164); (4122,4164); (4139,4164); (4163,4164); (4131,4165); (4146,4165); (4148,4165); (4143,4166);
(4151,4166); (4156,4166); (4142,4167); (4145,4167); (4160,4167); (4141,4168); (4151,4168); (4153,4168); (4135,4169); (4150,4169); (4162,4169); (4142,4170);
(4152,4170); (4167,4170); (4138,4171); (4147,4171); (4160,4171); (4152,4172); (4155,4172); (4170,4172); (4153,4173); (4155,4173); (4168,4173); (4172,4173);
(4150,4174); (4159,4174); (4169,4174); (3882,4175); (4032,4175); (4146,4176); (4147,4176); (4165,4176); (4171,4176); (4156,4177); (4161,4177); (4166,4177);
(4136,4178); (4149,4178); (4158,4178); (4139,4179); (4159,4179); (4164,4179); (4174,4179); (4148,4180); (4162,4180); (4165,4180); (4160,4181); (4167,4181);
(4171,4181); (4158,4182); (4161,4182); (4177,4182); (4178,4182); (4151,4183); (4166,4183); (4168,4183); (4162,4184); (4169,4184); (4180,4184); (4167,4185);
(4170,4185); (4181,4185); (4168,4186); (4173,4186); (4183,4186); (4172,4187); (4173,4187); (4186,4187); (4170,4188); (4172,4188); (4185,4188); (4187,4188);
(4169,4189); (4174,4189); (4184,4189); (4032,4190); (4144,4190); (4175,4190); (4165,4191); (4176,4191); (4180,4191); (4171,4192); (4176,4192); (4181,4192);
(4166,4193); (4177,4193); (4183,4193); (4163,4194); (4164,4194); (4144,4195); (4163,4195); (4190,4195); (4194,4195); (4149,4196); (4157,4196); (4178,4196);
(4177,4197); (4182,4197); (4193,4197); (4174,4198); (4179,4198); (4189,4198); (4180,4199); (4184,4199); (4191,4199); (4164,4200); (4179,4200); (4194,4200);
(4198,4200); (4181,4201); (4185,4201); (4192,4201); (4183,4202); (4186,4202); (4193,4202); (4178,4203); (4182,4203); (4197,4203); (4186,4204); (4187,4204);
(4202,4204); (4176,4205); (4191,4205); (4192,4205); (4187,4206); (4188,4206); (4204,4206); (4185,4207); (4188,4207); (4201,4207); (4206,4207); (4184,4208);
(4189,4208); (4199,4208); (4154,4209); (4157,4209); (4196,4209); (4189,4210); (4198,4210); (4208,4210); (4178,4211); (4196,4211); (4203,4211); (4192,4212);
(4201,4212); (4205,4212); (4191,4213); (4199,4213); (4205,4213); (4193,4214); (4197,4214); (4202,4214); (4201,4215); (4207,4215); (4212,4215); (4206,4216);
(4207,4216); (4215,4216); (4194,4217); (4195,4217); (4197,4218); (4203,4218); (4214,4218); (4204,4219); (4206,4219); (4216,4219); (4103,4220); (4154,4220);
(4209,4220); (4194,4221); (4200,4221); (4217,4221); (4198,4222); (4200,4222); (4210,4222); (4221,4222); (4199,4223); (4208,4223); (4213,4223); (4202,4224);
(4204,4224); (4214,4224); (4219,4224); (4203,4225); (4211,4225); (4218,4225); (4208,4226); (4210,4226); (4222,4226); (4223,4226); (4190,4227); (4195,4227);
(4217,4227); (4205,4228); (4212,4228); (4213,4228); (4196,4229); (4209,4229); (4211,4229); (4212,4230); (4215,4230); (4228,4230); (4211,4231); (4225,4231);
(4229,4231); (4214,4232); (4218,4232); (4224,4232); (4213,4233); (4223,4233); (4228,4233); (4215,4234); (4216,4234); (4230,4234); (4175,4235); (4190,4235);
(4227,4235); (4217,4236); (4221,4236); (4227,4236); (4218,4237); (4225,4237); (4231,4237); (4232,4237); (4216,4238); (4219,4238); (4224,4238); (4234,4238);
(4228,4239); (4230,4239); (4233,4239); (4223,4240); (4226,4240); (4233,4240); (4221,4241); (4222,4241); (4236,4241); (4230,4242); (4234,4242); (4239,4242);
(4222,4243); (4226,4243); (4240,4243); (4241,4243); (4224,4244); (4232,4244); (4238,4244); (4209,4245); (4220,4245); (4229,4245); (4232,4246); (4237,4246);
(4244,4246); (4234,4247); (4238,4247); (4242,4247); (4233,4248); (4239,4248); (4240,4248); (4231,4249); (4237,4249); (4246,4249); (4239,4250); (4242,4250);
(4247,4250); (4248,4250); (4227,4251); (4235,4251); (4236,4251); (4229,4252); (4231,4252); (4245,4252); (4249,4252); (4236,4253); (4241,4253); (4243,4253);
(4251,4253)].
(** The arrays i_inds and j_inds side by side. *)
Definition airfoil_pairs : list (N * N) := airfoil_pairs_0 ++ airfoil_pairs_1 ++ airfoil_pairs_2 ++ airfoil_pairs_3 ++ airfoil_pairs_4 ++ airfoil_pairs_5 ++ airfoil_pairs_6 ++ airfoil_pairs_7 ++ airfoil_pairs_8 ++ airfoil_pairs_9 ++ airfoil_pairs_10 ++ airfoil_pairs_11 ++ airfoil_pairs_12 ++ airfoil_pairs_13 ++ airfoil_pairs_14 ++ airfoil_pairs_15 ++ airfoil_pairs_16 ++ airfoil_pairs_17 ++ airfoil_pairs_18 ++ airfoil_pairs_19 ++ airfoil_pairs_20 ++ airfoil_pairs_21 ++ airfoil_pairs_22 ++ airfoil_pairs_23 ++ airfoil_pairs_24 ++ airfoil_pairs_25 ++ airfoil_pairs_26 ++ airfoil_pairs_27 ++ airfoil_pairs_28 ++ airfoil_pairs_29 ++ airfoil_pairs_30.
Definition airfoil_tree_0 : list (N * N) := [
(1,0); (17,0); (21,0); (2,1); (14,1); (27,17); (45,17); (67,17); (30,21); (48,21); (9,2); (15,2);
(32,14); (5,27); (52,27); (136,27); (91,45); (170,45); (671,67); (57,30); (92,48); (4,9); (16,9); (23,9);
(34,15); (53,32); (18,5); (115,52); (713,52); (903,136); (514,91); (681,91); (826,170); (990,671); (107,57); (556,92);
(13,4); (25,16); (28,16); (38,23); (56,34); (81,53); (1156,115); (1175,713); (1187,903); (801,514); (819,514); (940,681);
(1088,826); (1204,990); (160,107); (656,107); (824,556); (7,13); (20,13); (36,25); (41,25); (49,28); (61,38); (82,56);
(111,81); (1408,1156); (1461,1156); (1349,1175); (1317,1187); (979,801); (959,819); (1085,940); (1153,1088); (1223,1088); (1310,1204); (309,160);
(591,160); (751,656); (862,656); (972,824); (10,7); (19,7); (31,20); (46,36); (54,36); (55,36); (60,41); (74,49);
(88,61); (126,82); (1478,1408); (1512,1408); (1572,1461); (1423,1349); (1397,1317); (1064,979); (1055,959); (1140,1085); (1203,1153); (1304,1223);
(1376,1310); (355,309); (601,309); (702,591); (832,751); (887,751); (955,862); (1022,972); (1073,972); (3,10); (22,10); (26,10);
(29,19); (44,31); (59,46); (62,46); (66,54); (68,54); (69,55); (73,55); (78,60); (101,74); (105,74); (131,88);
(1509,1478); (1537,1478); (1548,1478); (1583,1512); (1661,1572); (1468,1423); (1433,1397); (1126,1064); (1122,1055); (1192,1140); (1263,1203); (1337,1304);
(1363,1304); (1406,1376); (350,355); (579,355); (696,601); (795,702); (877,832); (911,832); (956,887); (1012,955); (1049,1022); (1083,1022);
(1121,1073); (12,3); (24,3); (39,22); (47,22); (42,26); (51,44); (65,59); (70,59); (72,62); (79,66); (85,68);
(89,69); (94,69); (95,73); (102,78); (128,101); (134,101); (149,105); (1545,1509); (1559,1509); (1577,1537); (1613,1548); (1688,1583);
(1760,1661); (1485,1468); (1536,1468); (1451,1433); (1172,1126); (1163,1122); (1237,1192); (1315,1263); (1356,1337); (1385,1337); (1429,1406); (405,350);
(548,350); (646,579); (717,696); (781,696); (857,795); (907,877); (931,877); (966,911); (1005,956); (1040,1012); (1075,1049); (1112,1083);
(1170,1121); (6,12); (33,12); (37,12); (58,24); (50,39); (64,39); (76,47); (97,47); (63,51); (77,65); (80,65);
(87,70); (96,70); (90,72); (98,79); (103,85); (106,89); (112,89); (118,94); (109,95); (132,102); (164,128); (176,128);
(232,134); (1575,1545); (1584,1545); (1602,1559); (1644,1577); (1722,1613); (1815,1688); (2153,1760); (1488,1485); (1526,1485); (1570,1536); (1466,1451);
(1215,1172); (1193,1163); (1257,1237); (1299,1237); (1340,1315); (1375,1356); (1392,1356); (1413,1385); (1446,1429); (457,405); (552,405); (630,548);
(686,646); (730,717); (793,717); (852,781); (893,857); (932,907); (949,907); (976,931); (1006,966); (1034,1005); (1069,1040); (1102,1075);
(1143,1112); (1185,1170); (1207,1170); (11,6); (35,6); (75,33); (86,33); (84,37); (121,58); (71,64); (83,64); (113,76);
(139,76); (294,97); (441,97); (465,97); (93,77); (100,77); (99,80); (108,87); (110,87); (117,96); (119,90); (116,98);
(122,103); (124,106); (125,106); (137,112); (146,118); (186,132); (271,164); (315,164); (371,176); (1603,1575); (1609,1575); (1632,1584);
(1674,1602); (1732,1644); (1808,1722); (1956,1722); (3161,2153); (3469,2153); (1482,1488); (1506,1488); (1529,1526); (1562,1526); (1599,1570); (1465,1466);
(1228,1215); (1261,1257); (1292,1257); (1327,1299); (1348,1340); (1370,1340); (1388,1375); (1401,1375); (1415,1392); (1431,1413); (1445,1446); (509,457);
(572,457); (631,552); (663,630); (697,686); (715,730); (737,730); (770,730); (818,793); (856,793); (883,852); (912,893); (945,932);
(970,932); (984,949); (1010,976); (1036,1006); (1067,1034); (1097,1069); (1133,1102); (1165,1143); (1199,1185); (1219,1185); (1236,1207); (8,11);
(40,11); (104,35); (536,75); (623,75); (768,86); (607,84); (565,121); (114,83); (154,113); (344,139); (504,294); (583,294);
(666,441); (760,441); (657,465); (123,93); (120,100); (127,108); (129,108); (130,110); (133,117); (135,119); (142,119); (141,116);
(138,122); (140,124); (145,124); (143,125); (163,137); (167,137); (173,137); (180,137); (240,146); (368,186); (440,271); (477,315);
(1653,1603); (1633,1609); (1698,1632); (1729,1674); (1786,1732); (1876,1808); (2161,1808); (3082,1956); (3663,3161); (3854,3161); (4102,3469); (1479,1482);
(1497,1482); (1511,1506); (1539,1529); (1556,1529); (1597,1562); (1638,1599); (1460,1465); (1264,1261); (1287,1261); (1316,1292); (1338,1327); (1361,1348);
(1382,1370); (1404,1388); (1411,1388); (1427,1415)].
Definition airfoil_tree_1 : list (N * N) := [
(1441,1445); (543,509); (597,509); (638,572); (670,631); (691,697); (705,715); (731,715); (763,737); (798,770); (835,818); (865,818);
(888,856); (899,883); (921,912); (950,945); (977,945); (987,945); (1001,970); (1011,984); (1031,1010); (1061,1036); (1090,1067); (1119,1097);
(1154,1133); (1186,1165); (1213,1199); (1229,1199); (1244,1219); (43,8); (172,40); (927,104); (868,536); (886,536); (968,623); (1077,768);
(816,607); (158,114); (420,154); (564,344); (640,504); (687,583); (774,666); (827,666); (901,760); (930,760); (728,657); (144,123);
(204,123); (147,127); (148,127); (157,129); (152,130); (177,133); (159,135); (161,135); (184,142); (150,141); (168,141); (151,138);
(153,140); (156,140); (171,145); (155,143); (187,163); (196,163); (267,167); (273,167); (226,173); (256,180); (360,240); (445,368);
(501,368); (560,477); (1710,1653); (1682,1633); (1755,1698); (1835,1786); (1995,1876); (2311,1876); (3091,2161); (3565,3082); (3834,3663); (4020,3663);
(4153,3854); (4219,4102); (1475,1479); (1492,1479); (1507,1511); (1521,1511); (1533,1539); (1552,1539); (1582,1556); (1620,1597); (1666,1638); (1456,1460);
(1266,1264); (1285,1264); (1308,1287); (1332,1316); (1354,1338); (1377,1361); (1400,1382); (1417,1404); (1421,1404); (1439,1441); (626,543); (658,597);
(677,638); (689,705); (720,705); (749,731); (780,763); (813,798); (840,835); (870,835); (891,865); (906,888); (935,921); (951,950);
(975,950); (995,977); (1004,977); (1014,987); (1026,1001); (1052,1031); (1084,1061); (1103,1090); (1129,1119); (1157,1154); (1178,1154); (1201,1186);
(1225,1213); (1235,1213); (1247,1229); (830,43); (1101,172); (1189,927); (971,868); (989,868); (1060,886); (1137,968); (1214,1077); (430,158);
(539,420); (608,420); (655,564); (695,640); (743,687); (797,774); (849,774); (905,827); (978,901); (993,901); (1047,930); (321,144);
(459,204); (181,147); (212,147); (230,148); (280,157); (307,152); (400,177); (219,159); (235,159); (282,161); (347,184); (169,150);
(182,150); (218,168); (165,151); (162,153); (166,153); (178,156); (189,156); (192,156); (200,171); (207,171); (175,155); (213,187);
(225,187); (251,196); (341,267); (322,273); (296,226); (433,360); (503,445); (531,445); (573,501); (604,560); (1749,1710); (1800,1710);
(1713,1682); (1887,1835); (2184,1995); (2721,1995); (3149,2311); (3527,3091); (3744,3565); (3947,3834); (4066,3834); (4156,4020); (4208,4153); (4244,4219);
(1474,1475); (1493,1475); (1500,1507); (1518,1507); (1527,1533); (1544,1533); (1569,1552); (1596,1582); (1626,1620); (1663,1620); (1694,1666); (1455,1456);
(1269,1266); (1284,1266); (1306,1285); (1329,1308); (1350,1332); (1374,1354); (1394,1377); (1416,1400); (1436,1417); (636,626); (675,626); (707,689);
(736,720); (765,749); (791,780); (814,813); (836,840); (855,840); (872,840); (898,870); (917,891); (938,935); (953,951); (973,951);
(991,975); (1009,995); (1018,995); (1027,1004); (1033,1014); (1071,1052); (1095,1084); (1111,1103); (1130,1129); (1144,1129); (1155,1157); (1173,1157);
(1195,1178); (1217,1201); (1232,1225); (1240,1225); (1253,1235); (1271,830); (1303,1101); (1300,1189); (1058,971); (1120,989); (1179,1060); (1233,1137);
(1298,1214); (551,430); (619,539); (665,608); (706,655); (754,695); (810,743); (859,797); (908,849); (964,905); (1017,978); (1037,978);
(1066,993); (1107,1047); (1109,1047); (499,321); (584,459); (331,181); (381,212); (409,230); (422,280); (474,307); (540,400); (291,219);
(311,219); (348,235); (401,282); (453,347); (185,169); (194,169); (201,169); (223,182); (275,218); (183,165); (174,162); (179,166);
(191,178); (198,178); (210,189); (211,189); (216,192); (224,200); (231,207); (188,175); (249,213); (277,225); (306,251); (380,341);
(338,322); (447,433); (494,433); (533,503); (558,503); (588,531); (616,573); (1781,1749); (1847,1749); (1748,1713); (2056,1887); (2402,2184);
(2868,2184); (3365,2721); (3535,3149); (3701,3527); (3856,3744); (4021,3947); (4082,3947); (4148,4066); (4195,4156); (4228,4208); (4251,4244); (1467,1474);
(1484,1474); (1496,1500); (1510,1500); (1522,1527); (1541,1527); (1558,1544); (1581,1569); (1607,1596); (1631,1626); (1652,1626); (1689,1663); (1715,1694);
(1449,1455); (1265,1269); (1280,1269); (1296,1284); (1325,1306); (1344,1329); (1366,1350); (1384,1374); (1409,1394); (1430,1416); (649,636); (668,636);
(699,675); (724,707); (748,736); (777,765); (802,791); (817,814); (831,836); (847,836); (864,855); (875,855); (896,872); (916,898);
(926,898); (939,938); (952,953); (969,953); (985,973); (1000,991); (1019,1009); (1023,1009); (1030,1018); (1044,1027); (1070,1071); (1091,1071);
(1113,1095); (1123,1130); (1139,1130); (1149,1155); (1171,1155); (1188,1173); (1206,1195); (1226,1217); (1243,1232); (1248,1232); (1428,1271); (1448,1271);
(1405,1303); (1378,1300); (1152,1058); (1212,1120)].
Definition airfoil_tree_2 : list (N * N) := [
(1254,1179); (1309,1233); (1355,1298); (643,551); (683,619); (722,665); (773,706); (828,754); (874,810); (913,859); (957,908); (1007,964);
(1054,1017); (1063,1017); (1081,1037); (1104,1066); (1136,1107); (1142,1107); (1167,1109); (611,499); (660,584); (461,331); (493,381); (521,409);
(511,422); (578,474); (629,540); (197,185); (208,185); (215,185); (228,194); (234,201); (268,223); (195,183); (190,174); (193,179);
(205,191); (209,191); (221,198); (239,210); (241,210); (242,211); (245,216); (248,224); (266,231); (199,188); (289,249); (323,277);
(337,306); (394,380); (426,380); (377,338); (455,447); (485,447); (525,494); (561,533); (575,533); (595,558); (618,588); (1783,1781);
(1836,1781); (1950,1847); (1757,1748); (2198,2056); (2742,2402); (3019,2402); (3354,2868); (3537,3365); (3601,3365); (3699,3535); (3803,3701); (3951,3856);
(4049,4021); (4086,4021); (4135,4082); (4177,4148); (4210,4195); (4230,4228); (4248,4251); (1458,1467); (1476,1467); (1490,1496); (1505,1496); (1515,1522);
(1531,1522); (1549,1541); (1567,1558); (1591,1581); (1612,1607); (1635,1631); (1660,1631); (1676,1652); (1702,1689); (1734,1715); (1440,1449); (1259,1265);
(1276,1265); (1293,1280); (1314,1296); (1334,1325); (1357,1344); (1379,1366); (1402,1384); (1419,1409); (634,649); (652,649); (678,649); (693,668);
(719,699); (739,724); (761,748); (785,777); (812,802); (825,831); (842,831); (853,847); (867,864); (878,864); (894,875); (909,896);
(925,916); (929,916); (941,939); (946,952); (965,952); (983,969); (997,985); (1015,1000); (1028,1019); (1032,1019); (1039,1023); (1051,1030);
(1068,1070); (1086,1070); (1105,1091); (1117,1123); (1134,1123); (1148,1149); (1166,1149); (1183,1171); (1200,1188); (1220,1206); (1239,1226); (1255,1243);
(1491,1428); (1520,1428); (1580,1448); (1459,1405); (1395,1378); (1209,1152); (1260,1212); (1279,1212); (1318,1254); (1360,1309); (692,643); (735,683);
(787,722); (839,773); (881,828); (918,874); (960,913); (1002,957); (1048,1007); (1087,1054); (1094,1054); (1100,1063); (1116,1081); (1147,1136);
(1158,1136); (1181,1142); (1210,1167); (669,611); (704,660); (549,461); (562,493); (603,521); (645,578); (679,629); (206,197); (220,197);
(236,208); (243,215); (262,228); (258,234); (203,190); (202,193); (222,205); (229,205); (238,209); (250,221); (257,239); (259,239);
(260,241); (269,242); (264,245); (279,248); (293,266); (214,199); (310,289); (336,323); (353,323); (366,337); (393,394); (414,394);
(437,426); (387,377); (468,455); (488,455); (510,485); (529,525); (553,525); (574,561); (589,561); (605,575); (622,595); (1785,1783);
(1828,1783); (1865,1836); (1997,1950); (2177,1950); (1764,1757); (2587,2198); (2896,2742); (3056,2742); (3273,3019); (3406,3019); (3510,3354); (3606,3537);
(3643,3537); (3717,3601); (3788,3699); (3891,3803); (4014,3951); (4076,4049); (4097,4049); (4124,4086); (4157,4135); (4181,4177); (4202,4177); (4224,4210);
(4236,4230); (4245,4248); (1454,1458); (1473,1458); (1480,1490); (1498,1490); (1503,1515); (1519,1515); (1540,1531); (1555,1549); (1576,1567); (1595,1591);
(1618,1612); (1641,1635); (1662,1635); (1683,1660); (1696,1676); (1718,1702); (1742,1734); (1435,1440); (1274,1259); (1289,1276); (1311,1293); (1331,1314);
(1352,1334); (1373,1357); (1391,1379); (1414,1402); (639,634); (654,652); (673,652); (690,678); (701,678); (714,693); (732,719); (750,739);
(771,761); (788,785); (808,812); (822,825); (838,825); (848,842); (858,853); (869,867); (879,867); (892,878); (902,894); (920,909);
(934,925); (936,925); (944,946); (963,946); (981,965); (994,983); (1013,997); (1025,1015); (1043,1028); (1045,1028); (1050,1032); (1062,1068);
(1080,1068); (1099,1086); (1114,1117); (1132,1117); (1141,1148); (1160,1148); (1176,1166); (1194,1183); (1211,1200); (1230,1220); (1249,1239); (1268,1255);
(1534,1491); (1565,1491); (1621,1520); (1737,1580); (1442,1459); (1508,1459); (1399,1395); (1246,1209); (1281,1260); (1294,1260); (1321,1279); (1359,1318);
(745,692); (800,735); (844,787); (885,839); (922,881); (961,918); (999,960); (1041,1002); (1079,1048); (1118,1087); (1125,1087); (1131,1094);
(1138,1100); (1168,1147); (1177,1147); (1208,1181); (1241,1210); (712,669); (757,704); (609,549); (647,603); (680,645); (710,679); (227,206);
(246,220); (261,236); (265,243); (217,203); (237,222); (244,222); (252,229); (255,238); (278,250); (284,257); (287,257); (290,259);
(285,260); (292,269); (286,264); (298,279); (312,293); (233,214); (332,310); (352,336); (363,336); (374,353); (406,393); (425,414);
(449,437); (395,387); (471,468); (486,468); (505,488); (520,510); (537,529); (550,529); (569,553); (585,574); (594,574); (612,589);
(627,605); (1791,1785); (1813,1785); (1845,1828); (1888,1865); (2048,1997); (2193,1997); (2365,2177); (1766,1764); (2787,2587); (2998,2896); (3055,2896);
(3197,3056); (3361,3273); (3428,3273); (3436,3273)].
Definition airfoil_tree_3 : list (N * N) := [
(3500,3406); (3576,3510); (3669,3606); (3683,3606); (3726,3643); (3793,3717); (3861,3788); (3949,3891); (4017,4014); (4067,4014); (4104,4076); (4116,4076);
(4139,4124); (4160,4157); (4176,4181); (4196,4181); (4217,4202); (4231,4236); (4243,4245); (1443,1454); (1463,1454); (1470,1480); (1487,1480); (1499,1503);
(1517,1503); (1530,1519); (1546,1540); (1563,1555); (1588,1576); (1606,1595); (1628,1618); (1650,1641); (1668,1641); (1687,1662); (1704,1683); (1726,1718);
(1750,1742); (1424,1435); (1282,1274); (1297,1289); (1323,1311); (1342,1331); (1362,1352); (1381,1373); (1403,1391); (642,639); (661,654); (672,654);
(684,673); (700,690); (708,690); (721,701); (727,714); (741,732); (758,750); (776,771); (790,788); (805,808); (820,822); (833,822);
(846,838); (860,848); (866,869); (876,869); (890,879); (900,892); (915,902); (928,920); (942,934); (954,944); (974,963); (988,981);
(1003,994); (1020,1013); (1038,1025); (1053,1043); (1059,1043); (1078,1062); (1096,1080); (1106,1114); (1124,1114); (1135,1141); (1150,1141); (1169,1160);
(1184,1176); (1202,1194); (1224,1211); (1242,1230); (1258,1249); (1275,1268); (1573,1534); (1593,1534); (1646,1565); (1740,1621); (1930,1737); (1437,1442);
(1486,1442); (1525,1508); (1557,1508); (1387,1399); (1272,1246); (1301,1281); (1319,1281); (1322,1294); (1346,1321); (806,745); (851,800); (889,844);
(923,885); (958,922); (998,961); (1035,999); (1074,1041); (1108,1079); (1145,1118); (1151,1118); (1159,1125); (1164,1131); (1196,1168); (1198,1168);
(1231,1208); (1262,1241); (752,712); (803,757); (247,227); (270,246); (253,237); (254,237); (263,244); (274,252); (283,255); (297,278);
(300,284); (301,284); (303,287); (304,290); (302,285); (305,292); (319,298); (330,312); (343,332); (361,352); (372,352); (384,363);
(416,406); (438,425); (458,449); (403,395); (478,471); (487,471); (500,486); (515,505); (526,520); (542,537); (554,537); (567,550);
(581,569); (592,585); (600,585); (614,594); (625,612); (1794,1791); (1827,1791); (1857,1845); (1914,1888); (2067,2048); (2240,2048); (2410,2193);
(2738,2365); (1773,1766); (2870,2787); (2972,2787); (3070,2998); (3089,2998); (3164,3055); (3275,3197); (3400,3361); (3423,3361); (3456,3428); (3465,3428);
(3495,3436); (3566,3500); (3620,3576); (3697,3669); (3735,3669); (3740,3669); (3759,3683); (3799,3726); (3866,3793); (3908,3861); (3956,3949); (4009,4017);
(4050,4017); (4093,4067); (4129,4104); (4133,4104); (4155,4160); (4165,4176); (4192,4176); (4213,4196); (4223,4231); (4237,4243); (1434,1443); (1453,1443);
(1464,1470); (1481,1470); (1678,1650); (1691,1668); (1709,1687); (1730,1726); (1752,1750); (1412,1424); (1290,1282); (1312,1297); (1333,1323); (1353,1342);
(1372,1362); (1390,1381); (637,642); (650,642); (659,661); (667,661); (682,672); (694,684); (709,700); (718,700); (726,708); (734,721);
(746,741); (764,758); (779,776); (792,790); (807,805); (815,820); (829,820); (841,833); (854,846); (863,866); (873,866); (884,876);
(897,890); (910,900); (924,915); (937,928); (948,942); (967,954); (982,974); (996,988); (1016,1003); (1029,1020); (1046,1038); (1065,1053);
(1072,1053); (1089,1078); (1098,1106); (1115,1106); (1128,1135); (1146,1135); (1162,1150); (1180,1169); (1197,1184); (1218,1202); (1234,1224); (1252,1242);
(1270,1258); (1286,1275); (1594,1573); (1615,1573); (1654,1593); (1728,1646); (1856,1740); (2765,1930); (3478,1930); (1432,1437); (1471,1437); (1502,1486);
(1528,1525); (1550,1525); (1585,1557); (1365,1387); (1389,1387); (1288,1272); (1320,1301); (1328,1301); (1339,1319); (843,806); (880,851); (914,889);
(947,923); (986,958); (1021,998); (1056,1035); (1093,1074); (1127,1108); (1161,1145); (1174,1145); (1182,1151); (1190,1159); (1222,1196); (1227,1196);
(1256,1231); (1283,1262); (272,247); (276,253); (281,254); (288,263); (295,274); (299,283); (308,297); (316,300); (318,300); (317,301);
(313,303); (314,304); (320,305); (329,319); (342,330); (356,343); (369,361); (378,361); (388,372); (427,416); (444,438); (460,458);
(469,458); (411,403); (480,478); (489,478); (497,487); (512,500); (522,515); (532,526); (544,542); (555,542); (566,554); (576,567);
(587,581); (596,592); (606,592); (617,600); (628,614); (1798,1794); (1826,1794); (1850,1857); (1882,1857); (1925,1914); (2026,2067); (2173,2067);
(2257,2067); (2604,2240); (2684,2240); (2761,2410); (2864,2738); (1775,1773); (2937,2870); (2989,2870); (3115,3070); (3173,3070); (3183,3070); (3209,3089);
(3314,3164); (3376,3275); (3422,3400); (3444,3400); (3480,3456); (3494,3456); (3521,3465); (3577,3566); (3618,3566); (3668,3620); (3721,3697); (3751,3697);
(3774,3735); (3787,3735); (3778,3740); (3818,3759); (3859,3799); (3914,3866); (3959,3956); (4005,4009); (4045,4009); (4068,4050); (4087,4093); (4115,4093);
(4142,4129); (4150,4165); (4182,4165); (4201,4192); (4203,4223); (4218,4223); (4215,4237); (4233,4237); (4246,4237); (1425,1434); (1447,1434); (1700,1678);
(1712,1691); (1733,1730); (1758,1752); (1407,1412)].
Definition airfoil_tree_4 : list (N * N) := [
(1302,1290); (1326,1312); (1345,1333); (1367,1353); (1383,1372); (635,637); (648,637); (653,659); (664,659); (676,667); (688,682); (703,694);
(716,709); (723,709); (733,718); (742,726); (756,746); (769,764); (783,779); (796,792); (804,807); (811,815); (823,815); (837,829);
(850,841); (861,863); (871,863); (882,873); (895,884); (904,897); (919,910); (933,924); (943,937); (962,948); (980,967); (992,982);
(1008,996); (1024,1016); (1042,1029); (1057,1046); (1076,1065); (1082,1065); (1092,1098); (1110,1098); (1614,1594); (1630,1594); (1669,1615); (1723,1654);
(1814,1728); (2140,1856); (3066,2765); (3612,2765); (3881,3478); (4031,3478); (1426,1432); (1457,1432); (1489,1471); (1514,1502); (1538,1528); (1547,1528);
(1566,1550); (1586,1585); (1610,1585); (1347,1365); (1364,1365); (1398,1389); (1313,1288); (1341,1320); (1343,1320); (1191,1161); (1205,1174); (1216,1182);
(1245,1222); (1251,1222); (1278,1256); (1307,1283); (327,316); (328,316); (325,317); (324,313); (326,314); (340,329); (354,342); (364,356);
(376,369); (382,369); (391,378); (402,388); (423,427); (435,427); (448,444); (456,460); (467,460); (472,469); (415,411); (481,480);
(490,480); (496,489); (507,497); (518,512); (527,522); (535,532); (541,544); (547,544); (563,555); (571,566); (582,576); (593,587);
(602,596); (615,606); (624,617); (1799,1798); (1825,1798); (1843,1850); (1866,1850); (1890,1882); (1924,1925); (1977,2026); (2086,2026); (2206,2173);
(2291,2173); (2618,2257); (2725,2604); (2733,2604); (2821,2684); (2856,2684); (2917,2761); (2951,2864); (1778,1775); (3000,2937); (3067,2989); (3145,3115);
(3198,3115); (3264,3173); (3284,3173); (3285,3183); (3356,3209); (3398,3314); (3435,3422); (3460,3422); (3501,3480); (3513,3480); (3541,3494); (3591,3577);
(3624,3577); (3655,3618); (3696,3668); (3739,3721); (3762,3721); (3783,3751); (3809,3774); (3813,3774); (3827,3787); (3814,3778); (3851,3818); (3862,3818);
(3904,3859); (3955,3959); (3992,4005); (4037,4005); (4065,4045); (4094,4087); (4106,4087); (4127,4115); (4125,4150); (4140,4150); (4167,4150); (4185,4182);
(4186,4203); (4205,4203); (4206,4215); (4214,4215); (4229,4233); (4241,4233); (4249,4246); (1720,1700); (1745,1733); (1765,1758); (633,635); (644,635);
(651,653); (662,653); (674,664); (685,676); (698,688); (711,703); (725,716); (729,716); (738,723); (747,733); (762,756); (775,769);
(786,783); (789,796); (799,804); (809,811); (821,811); (834,823); (845,837); (1627,1614); (1636,1614); (1655,1630); (1675,1630); (1714,1669);
(1772,1723); (1874,1814); (2264,2140); (3277,3066); (3607,3066); (3885,3612); (4174,3881); (4143,4031); (4189,4031); (1422,1426); (1452,1426); (1477,1457);
(1501,1489); (1523,1514); (1543,1538); (1554,1538); (1564,1547); (1587,1586); (1601,1586); (1624,1610); (1371,1364); (1396,1398); (1336,1313); (1369,1343);
(1221,1191); (1238,1205); (1267,1245); (1273,1245); (1295,1278); (1330,1307); (335,327); (339,327); (333,325); (334,324); (351,340); (362,354);
(373,364); (385,376); (390,376); (398,391); (407,402); (424,423); (432,423); (442,435); (452,448); (464,456); (475,467); (417,415);
(479,481); (484,481); (495,490); (506,496); (516,507); (523,518); (530,527); (538,541); (546,541); (559,547); (570,563); (580,571);
(590,582); (599,593); (613,602); (621,615); (1804,1799); (1821,1799); (1838,1843); (1858,1843); (1872,1866); (1893,1890); (1916,1924); (1942,1977);
(2007,1977); (2054,2086); (2127,2086); (2205,2206); (2279,2206); (2483,2291); (2674,2291); (2751,2618); (2763,2618); (2785,2725); (2793,2725); (2812,2725);
(2906,2821); (2924,2821); (2970,2856); (2993,2917); (3001,2951); (1789,1778); (3044,3000); (3108,3067); (3176,3145); (3228,3145); (3316,3198); (3344,3264);
(3352,3264); (3381,3284); (3377,3285); (3410,3356); (3448,3435); (3473,3435); (3507,3501); (3525,3501); (3543,3501); (3560,3513); (3597,3591); (3626,3591);
(3651,3624); (3682,3655); (3719,3696); (3753,3739); (3769,3739); (3795,3762); (3825,3783); (3838,3809); (3840,3809); (3843,3813); (3845,3814); (3876,3851);
(3880,3851); (3911,3862); (3945,3955); (3966,3992); (4007,3992); (4046,4037); (4070,4037); (4091,4094); (4112,4094); (4108,4125); (4117,4125); (4128,4140);
(4152,4140); (4172,4167); (4171,4186); (4187,4186); (4184,4206); (4200,4206); (4211,4214); (4227,4229); (4238,4229); (4247,4249); (632,633); (641,633);
(740,725); (744,729); (753,738); (766,762); (778,775); (784,789); (794,799); (1640,1627); (1648,1627); (1673,1655); (1706,1675); (1753,1714);
(1802,1772); (1883,1874); (1969,2264); (2223,2264); (2983,2264); (3399,3277); (3569,3277); (3714,3607); (3820,3607); (4052,3885); (4234,4174); (4162,4143);
(4194,4143); (4226,4189); (1418,1422); (1444,1422); (1469,1452); (1494,1477); (1516,1501); (1535,1523); (1553,1543); (1561,1543); (1574,1554); (1592,1587);
(1604,1587); (1619,1601); (1643,1624); (1386,1396); (1358,1336); (1250,1221); (1277,1267); (1291,1267); (1324,1295); (1351,1330); (346,335); (349,335);
(345,333); (359,351); (370,362); (383,373)].
Definition airfoil_tree_5 : list (N * N) := [
(392,385); (396,385); (408,398); (421,424); (431,424); (439,432); (450,442); (462,452); (470,464); (413,417); (476,479); (483,479);
(492,484); (502,495); (513,506); (519,516); (528,523); (534,538); (545,538); (557,546); (568,559); (577,570); (586,580); (598,590);
(610,599); (620,613); (1809,1804); (1822,1804); (1840,1838); (1855,1838); (1873,1872); (1894,1893); (1903,1916); (1928,1942); (1972,1942); (2009,2007);
(2041,2054); (2092,2054); (2138,2127); (2190,2205); (2231,2205); (2278,2205); (2467,2279); (2637,2483); (2671,2483); (2736,2674); (2757,2674); (2797,2751);
(2801,2751); (2815,2763); (2825,2785); (2874,2793); (2867,2812); (2956,2906); (2994,2906); (3008,2906); (3028,2924); (3036,2970); (3037,2993); (3085,3044);
(3144,3108); (3194,3176); (3257,3176); (3339,3228); (3385,3316); (3392,3344); (3409,3352); (3424,3381); (3418,3377); (3463,3448); (3486,3448); (3514,3507);
(3532,3507); (3552,3525); (3570,3543); (3610,3597); (3631,3597); (3656,3626); (3676,3651); (3705,3682); (3734,3719); (3764,3753); (3781,3753); (3806,3769);
(3829,3795); (3858,3825); (3869,3838); (3870,3838); (3877,3840); (3884,3845); (3902,3876); (3906,3876); (3929,3945); (3952,3966); (3980,3966); (4008,4007);
(4032,4046); (4051,4046); (4069,4046); (4090,4091); (4096,4108); (4100,4117); (4107,4128); (4132,4128); (4154,4152); (4151,4171); (4169,4171); (4166,4184);
(4180,4184); (4191,4200); (4204,4211); (4212,4227); (4232,4227); (4239,4247); (755,740); (759,744); (772,766); (782,784); (1651,1640); (1667,1640);
(1693,1673); (1736,1706); (1779,1753); (1823,1802); (1849,1883); (1902,1969); (2058,1969); (2179,2223); (2631,2223); (3134,2983); (3468,3399); (3550,3399);
(3658,3569); (3772,3714); (3832,3714); (3971,3820); (4103,4052); (4250,4234); (4163,4162); (4193,4162); (4216,4194); (4235,4226); (1410,1418); (1438,1418);
(1462,1444); (1483,1469); (1504,1494); (1524,1516); (1542,1535); (1560,1553); (1571,1553); (1579,1561); (1600,1592); (1611,1592); (1622,1604); (1639,1619);
(1658,1643); (1380,1386); (1305,1277); (1335,1324); (1368,1351); (357,346); (358,346); (367,359); (379,370); (389,383); (399,392); (404,392);
(419,421); (429,421); (436,431); (446,439); (454,450); (466,462); (412,413); (473,476); (482,476); (491,483); (498,492); (508,502);
(517,513); (524,519); (1831,1809); (1851,1840); (1860,1840); (1877,1873); (1891,1894); (1899,1903); (1906,1903); (1931,1928); (1974,1972); (2013,2009);
(2050,2041); (2094,2041); (2119,2138); (2132,2190); (2158,2190); (2214,2190); (2243,2231); (2258,2231); (2294,2278); (2349,2278); (2430,2278); (2580,2467);
(2658,2467); (2683,2637); (2699,2637); (2711,2671); (2749,2736); (2778,2736); (2784,2736); (2813,2757); (2826,2757); (2840,2797); (2845,2797); (2846,2801);
(2861,2815); (2926,2874); (2910,2867); (2977,2956); (3014,2956); (3041,2994); (3046,2994); (3047,3008); (3077,3028); (3094,3028); (3084,3036); (3118,3085);
(3155,3144); (3229,3194); (3305,3194); (3368,3257); (3401,3339); (3431,3385); (3438,3392); (3446,3409); (3454,3418); (3470,3463); (3493,3463); (3524,3514);
(3545,3514); (3567,3532); (3588,3552); (3616,3610); (3636,3610); (3660,3631); (3680,3656); (3692,3676); (3715,3705); (3745,3734); (3773,3764); (3797,3764);
(3824,3781); (3844,3806); (3871,3829); (3894,3858); (3898,3869); (3901,3870); (3905,3877); (3917,3884); (3925,3902); (3946,3952); (3973,3952); (3989,3980);
(3991,4008); (3998,4008); (3996,4032); (4011,4032); (4034,4032); (4058,4051); (4075,4051); (4078,4096); (4081,4100); (4085,4107); (4110,4107); (4131,4132);
(4123,4151); (4141,4151); (4144,4166); (4159,4166); (4170,4180); (4175,4191); (4190,4204); (4198,4212); (4222,4212); (4225,4239); (4242,4239); (767,755);
(1670,1651); (1684,1667); (1707,1693); (1739,1736); (1770,1736); (1801,1779); (1818,1849); (1841,1849); (1875,1902); (1938,1902); (2070,2058); (2152,2179);
(2324,2179); (2786,2631); (2969,3134); (3139,3134); (3414,3134); (3528,3468); (3590,3468); (3728,3658); (3868,3772); (3921,3772); (4053,3971); (4121,4103);
(4252,4250); (4138,4163); (4178,4163); (4199,4163); (4220,4193); (4240,4235); (1393,1410); (1420,1410); (1450,1438); (1472,1462); (1495,1483); (1513,1504);
(1532,1524); (1551,1542); (1568,1560); (1578,1560); (1590,1571); (1608,1600); (1617,1600); (1629,1611); (1642,1622); (1659,1639); (1677,1658); (365,357);
(375,367); (386,379); (397,389); (410,399); (418,419); (428,419); (434,429); (443,436); (451,446); (463,454); (1863,1851); (1880,1877);
(1895,1891); (1901,1899); (1909,1906); (1932,1931); (1958,1974); (1994,1974); (2028,2013); (2069,2050); (2089,2119); (2103,2132); (2130,2132); (2154,2158);
(2171,2158); (2212,2214); (2237,2214); (2265,2243); (2268,2243); (2323,2294); (2406,2349); (2458,2349); (2531,2430); (2628,2580); (2659,2580); (2694,2658);
(2713,2683); (2730,2699); (2767,2749); (2788,2749); (2799,2778); (2803,2778); (2816,2778); (2807,2784); (2809,2784); (2839,2813); (2847,2813); (2862,2826);
(2879,2840); (2883,2840); (2887,2845); (2898,2846); (2949,2926); (2931,2910); (2991,2977); (3021,2977); (3051,3014); (3076,3041); (3079,3041); (3112,3046);
(3088,3047); (3120,3077); (3135,3077); (3146,3094)].
Definition airfoil_tree_6 : list (N * N) := [
(3179,3155); (3246,3229); (3326,3229); (3378,3305); (3411,3368); (3440,3401); (3464,3431); (3479,3446); (3487,3454); (3502,3470); (3531,3524); (3553,3524);
(3573,3545); (3595,3567); (3623,3616); (3642,3616); (3666,3636); (3684,3660); (3700,3680); (3725,3715); (3757,3745); (3924,3898); (3927,3901); (3935,3905);
(3948,3946); (3968,3946); (3983,3973); (3993,3991); (3994,3996); (3988,4011); (3997,4011); (4023,4011); (4042,4034); (4062,4058); (4061,4081); (4060,4085);
(4080,4085); (4101,4110); (4092,4123); (4111,4123); (4118,4141); (4114,4144); (4136,4144); (4137,4159); (4146,4170); (4145,4175); (4164,4175); (4179,4190);
(4183,4198); (4207,4198); (4209,4225); (4221,4225); (1695,1684); (1717,1707); (1743,1739); (1769,1739); (1792,1770); (1811,1818); (1832,1841); (1870,1875);
(1904,1875); (1981,1938); (2036,2070); (2117,2152); (2236,2152); (2609,2324); (2775,2786); (2936,2969); (3039,2969); (3167,3139); (3353,3139); (3475,3414);
(3579,3528); (3644,3528); (3812,3728); (3964,3868); (4018,3868); (4098,4053); (4126,4138); (4158,4138); (4173,4178); (4197,4178); (1589,1568); (1598,1578);
(1616,1608); (1625,1608); (1637,1617); (1649,1629); (1664,1642); (1680,1659); (1911,1909); (1929,1932); (1947,1958); (1980,1958); (2006,1994); (2045,2028);
(2064,2089); (2080,2103); (2112,2103); (2128,2130); (2148,2154); (2166,2154); (2185,2171); (2201,2212); (2218,2212); (2241,2212); (2289,2265); (2316,2265);
(2328,2265); (2387,2323); (2494,2406); (2562,2406); (2598,2458); (2667,2628); (2693,2628); (2709,2659); (2740,2694); (2753,2713); (2789,2767); (2800,2767);
(2817,2788); (2824,2799); (2827,2803); (2843,2816); (2832,2807); (2838,2807); (2828,2809); (2866,2839); (2869,2839); (2884,2847); (2897,2862); (2903,2879);
(2908,2879); (2919,2883); (2916,2887); (2960,2949); (2941,2931); (3006,2991); (3030,2991); (3063,3021); (3100,3051); (3119,3076); (3125,3079); (3158,3112);
(3137,3088); (3190,3135); (3201,3146); (3262,3246); (3341,3246); (3384,3326); (3417,3378); (3447,3411); (3471,3440); (3492,3464); (3509,3479); (3515,3487);
(3538,3531); (3558,3531); (3581,3553); (3603,3573); (3629,3623); (3647,3623); (3671,3642); (3688,3666); (3707,3684); (3738,3725); (3958,3927); (3974,3948);
(3986,3968); (3975,3988); (3984,3997); (4006,3997); (4026,4023); (4041,4042); (4036,4061); (4033,4060); (4054,4060); (4073,4080); (4056,4092); (4074,4092);
(4084,4111); (4083,4118); (4089,4114); (4120,4114); (4122,4137); (4119,4146); (4099,4145); (4130,4145); (4147,4164); (4161,4179); (4168,4183); (4188,4183);
(1701,1695); (1724,1717); (1746,1743); (1767,1743); (1788,1769); (1806,1811); (1816,1832); (1837,1832); (1868,1870); (1896,1870); (1946,1904); (2003,2036);
(2074,2117); (2187,2117); (2293,2236); (2654,2609); (2782,2775); (2945,2936); (3064,3039); (3217,3167); (3407,3167); (3516,3475); (3632,3579); (3708,3579);
(3815,3812); (3930,3812); (4044,3964); (4072,3964); (4109,4126); (4149,4126); (1605,1589); (1623,1616); (1634,1616); (1647,1625); (1657,1637); (1672,1649);
(1685,1664); (1907,1911); (1922,1929); (1937,1947); (1960,1947); (1990,1980); (2023,2006); (2037,2064); (2059,2064); (2062,2080); (2091,2080); (2111,2112);
(2126,2128); (2141,2148); (2162,2148); (2183,2166); (2200,2201); (2219,2218); (2244,2218); (2273,2241); (2304,2289); (2336,2289); (2357,2289); (2362,2316);
(2401,2316); (2375,2328); (2386,2328); (2469,2387); (2551,2494); (2576,2494); (2621,2562); (2636,2562); (2675,2667); (2701,2667); (2722,2693); (2734,2693);
(2747,2709); (2771,2740); (2773,2740); (2808,2789); (2823,2789); (2836,2800); (2855,2817); (2842,2824); (2854,2827); (2871,2843); (2853,2832); (2859,2832);
(2873,2838); (2927,2903); (2938,2908); (2971,2960); (2954,2941); (3163,3119); (3177,3125); (3212,3158); (3286,3201); (3351,3262); (3395,3341); (3425,3384);
(3449,3417); (3476,3447); (3497,3471); (3520,3492); (3542,3515); (3563,3538); (3586,3558); (3609,3581); (3639,3629); (3659,3629); (3679,3647); (3698,3671);
(3720,3688); (3960,3975); (3969,3984); (4000,3984); (4022,4026); (4016,4036); (4002,4033); (4024,4033); (4040,4054); (4028,4056); (4039,4056); (4048,4074);
(4043,4084); (4055,4083); (4063,4089); (4095,4089); (4088,4122); (4071,4119); (4038,4099); (4077,4099); (4105,4130); (4113,4147); (4134,4161); (1705,1701);
(1725,1724); (1744,1746); (1762,1746); (1784,1767); (1797,1806); (1796,1816); (1819,1816); (1844,1837); (1861,1868); (1886,1868); (1919,1896); (1970,2003);
(2017,2074); (2136,2074); (2227,2187); (2370,2293); (2690,2654); (2804,2782); (2965,2945); (3083,3064); (3251,3217); (3439,3217); (3559,3516); (3649,3632);
(3727,3632); (3785,3815); (3853,3815); (3916,3815); (4003,3930); (4079,4044); (1645,1623); (1656,1634); (1671,1647); (1681,1657); (1692,1672); (1908,1907);
(1920,1922); (1935,1937); (1944,1937); (1964,1960); (1985,1990); (2010,1990); (2025,2037); (2042,2037); (2051,2062); (2072,2062); (2093,2091); (2108,2111);
(2123,2126); (2135,2141); (2155,2141); (2176,2162); (2192,2200); (2202,2219); (2229,2219); (2247,2219); (2269,2244); (2282,2273); (2300,2273); (2326,2304);
(2344,2304); (2374,2336); (2393,2336); (2396,2357); (2399,2357); (2408,2362); (2473,2401); (2424,2375); (2442,2386); (2543,2469); (2590,2551); (2603,2551);
(2655,2621); (2668,2621); (2695,2675); (2710,2701)].
Definition airfoil_tree_7 : list (N * N) := [
(2724,2701); (2755,2722); (2759,2722); (2756,2734); (2783,2747); (2798,2771); (2802,2773); (2835,2808); (2848,2808); (2860,2823); (2875,2836); (2890,2855);
(2863,2842); (2880,2854); (2878,2853); (2888,2859); (2901,2873); (3232,3163); (3313,3212); (3371,3286); (3404,3351); (3434,3395); (3461,3425); (3483,3449);
(3503,3476); (3529,3497); (3551,3520); (3575,3542); (3596,3563); (3619,3586); (3941,3960); (3953,3969); (3990,3969); (3979,4016); (3961,4002); (3987,4002);
(4004,4024); (3981,4028); (4001,4028); (4013,4039); (4015,4048); (3999,4043); (4012,4043); (4029,4055); (4019,4063); (4057,4063); (4047,4088); (4025,4071);
(3934,4038); (3950,4038); (4027,4038); (4064,4077); (4059,4105); (4035,4113); (1711,1705); (1731,1725); (1751,1744); (1761,1744); (1777,1762); (1780,1796);
(1803,1796); (1824,1819); (1842,1844); (1854,1861); (1867,1861); (1881,1861); (1900,1886); (1917,1970); (1943,2017); (2024,2017); (2113,2017); (2188,2136);
(2232,2227); (2290,2227); (2538,2370); (2715,2690); (2829,2804); (2984,2965); (3096,3083); (3238,3251); (3405,3251); (3506,3439); (3585,3559); (3646,3649);
(3716,3649); (3790,3785); (3879,3853); (3937,3853); (1665,1645); (1679,1656); (1690,1671); (1699,1681); (1912,1908); (1921,1920); (1936,1935); (1949,1944);
(1963,1964); (1968,1985); (1984,1985); (1999,1985); (2011,2025); (2030,2025); (2040,2051); (2055,2051); (2075,2072); (2090,2093); (2101,2108); (2118,2123);
(2125,2135); (2146,2135); (2167,2155); (2181,2192); (2195,2202); (2215,2202); (2235,2229); (2248,2229); (2266,2247); (2272,2247); (2274,2247); (2283,2269);
(2299,2282); (2321,2300); (2347,2326); (2358,2326); (2382,2344); (2411,2374); (2425,2374); (2432,2393); (2434,2393); (2428,2396); (2445,2399); (2486,2408);
(2542,2473); (2471,2424); (2498,2442); (2585,2543); (2620,2590); (2625,2590); (2656,2655); (2681,2655); (2688,2655); (2712,2695); (2726,2710); (2746,2724);
(2774,2755); (2779,2755); (2792,2755); (2780,2759); (2805,2783); (2830,2798); (2834,2802); (2872,2835); (2881,2835); (2892,2848); (2900,2860); (2907,2875);
(2915,2890); (2885,2863); (2895,2878); (2905,2888); (2922,2901); (3922,3941); (3933,3953); (3919,3961); (3942,3961); (3962,3987); (3939,3981); (3954,3981);
(3970,4001); (3978,4013); (3972,4015); (3963,3999); (3965,3999); (3982,4012); (3976,4029); (3967,4019); (3977,4019); (4030,4019); (3995,4047); (3957,4025);
(3863,3934); (3867,3934); (3931,3934); (3889,3950); (4010,4027); (3985,4059); (1719,1711); (1738,1731); (1756,1751); (1768,1751); (1787,1780); (1807,1803);
(1829,1824); (1846,1842); (1862,1854); (1879,1867); (1885,1867); (1898,1917); (1910,1943); (1967,1943); (2035,2024); (2102,2024); (2160,2113); (2209,2188);
(2252,2232); (2348,2290); (2626,2538); (2731,2715); (2851,2829); (2985,2984); (3086,3096); (3165,3238); (3373,3238); (3450,3405); (3536,3506); (3593,3585);
(3654,3646); (3733,3646); (3807,3790); (3909,3879); (1686,1665); (1697,1679); (1708,1690); (1915,1912); (1926,1921); (1940,1936); (1954,1949); (1957,1968);
(1973,1968); (1979,1984); (1993,1984); (2000,2011); (2018,2011); (2027,2030); (2039,2040); (2057,2055); (2073,2075); (2083,2090); (2096,2101); (2107,2101);
(2110,2118); (2115,2125); (2131,2125); (2145,2146); (2164,2146); (2172,2181); (2191,2195); (2207,2195); (2222,2215); (2242,2235); (2251,2235); (2261,2248);
(2287,2266); (2288,2266); (2286,2272); (2298,2283); (2320,2299); (2342,2321); (2368,2347); (2377,2347); (2391,2358); (2418,2382); (2447,2411); (2451,2411);
(2456,2425); (2464,2425); (2454,2432); (2459,2432); (2460,2434); (2463,2428); (2489,2445); (2539,2486); (2584,2542); (2510,2471); (2544,2498); (2613,2585);
(2639,2620); (2640,2620); (2660,2656); (2672,2656); (2689,2681); (2702,2681); (2705,2681); (2723,2712); (2739,2726); (2752,2746); (2768,2746); (2791,2774);
(2806,2774); (2811,2779); (2819,2779); (2844,2792); (2837,2805); (2865,2830); (2858,2834); (2904,2872); (2909,2872); (2914,2881); (2923,2892); (2929,2900);
(2932,2907); (2934,2915); (3903,3922); (3882,3919); (3897,3919); (3920,3942); (3895,3939); (3913,3939); (3926,3954); (3932,3970); (3940,3978); (3936,3972);
(3938,3963); (3944,3965); (3918,3982); (3923,3976); (3928,3967); (3943,3977); (3896,3957); (3777,3863); (3802,3863); (3835,3863); (3804,3867); (3842,3889);
(1727,1719); (1747,1738); (1763,1756); (1774,1756); (1793,1787); (1812,1807); (1833,1829); (1852,1846); (1869,1862); (1889,1879); (1897,1910); (1927,1910);
(1986,1967); (2049,2035); (2100,2035); (2147,2102); (2189,2160); (2226,2209); (2284,2252); (2417,2348); (2657,2626); (2729,2731); (2833,2851); (2990,2985);
(3059,3086); (3105,3165); (3191,3165); (3324,3165); (3427,3373); (3484,3450); (3549,3536); (3599,3593); (3664,3654); (3736,3654); (1703,1686); (1716,1697);
(1918,1915); (1933,1926); (1945,1940); (1953,1957); (1965,1957); (1975,1979); (1987,1979); (1996,2000); (2012,2000); (2022,2027); (2038,2039); (2053,2057);
(2066,2073); (2079,2083); (2088,2096); (2097,2096); (2099,2110); (2104,2115); (2120,2115); (2133,2131); (2144,2145); (2157,2145); (2163,2172); (2175,2172);
(2186,2191); (2203,2191); (2217,2207); (2234,2222); (2253,2242); (2255,2242); (2260,2251); (2277,2261); (2302,2287); (2308,2287); (2296,2288); (2312,2288);
(2322,2298); (2343,2320); (2367,2342); (2397,2368)].
Definition airfoil_tree_8 : list (N * N) := [
(2403,2368); (2409,2377); (2431,2391); (2453,2418); (2475,2447); (2477,2447); (2484,2451); (2479,2456); (2482,2456); (2488,2464); (2480,2454); (2487,2454);
(2478,2459); (2503,2463); (2520,2489); (2566,2539); (2600,2584); (2614,2584); (2537,2510); (2561,2544); (2633,2613); (2650,2640); (2669,2660); (2680,2672);
(2692,2689); (2703,2689); (2718,2702); (2720,2702); (2737,2723); (2750,2739); (2764,2752); (2776,2768); (2796,2791); (2820,2791); (2849,2806); (2857,2811);
(2877,2819); (2893,2844); (2902,2844); (2876,2837); (2894,2865); (2928,2904); (2935,2904); (2939,2909); (2942,2914); (2946,2923); (2947,2929); (2948,2932);
(3860,3882); (3878,3897); (3852,3895); (3872,3895); (3888,3913); (3899,3926); (3907,3932); (3910,3940); (3915,3936); (3912,3938); (3900,3944); (3873,3918);
(3883,3918); (3890,3923); (3893,3928); (3850,3896); (3693,3777); (3742,3777); (3754,3802); (3752,3804); (3782,3804); (3811,3842); (1735,1727); (1754,1747);
(1771,1763); (1782,1763); (1805,1793); (1820,1812); (1839,1833); (1859,1852); (1878,1869); (1884,1897); (1905,1897); (1951,1927); (2005,1986); (2068,2049);
(2106,2049); (2139,2100); (2174,2147); (2211,2189); (2250,2226); (2315,2284); (2535,2417); (2632,2657); (2704,2729); (2769,2833); (2889,2833); (2987,2990);
(3043,3059); (3087,3105); (3131,3105); (3171,3191); (3282,3191); (3386,3324); (3451,3427); (3505,3484); (3561,3549); (3605,3599); (3617,3664); (1721,1703);
(1923,1918); (1939,1933); (1948,1953); (1959,1953); (1971,1975); (1983,1975); (1992,1996); (2008,1996); (2020,2022); (2034,2038); (2047,2053); (2063,2066);
(2077,2079); (2084,2088); (2087,2099); (2095,2104); (2109,2104); (2124,2120); (2137,2133); (2151,2144); (2159,2163); (2169,2163); (2180,2186); (2197,2186);
(2213,2203); (2228,2217); (2245,2234); (2259,2253); (2271,2253); (2275,2255); (2292,2277); (2325,2302); (2333,2308); (2314,2296); (2319,2296); (2340,2312);
(2345,2322); (2366,2343); (2392,2367); (2496,2475); (2497,2475); (2500,2484); (2490,2479); (2495,2479); (2492,2482); (2499,2488); (2491,2480); (2501,2480);
(2513,2487); (2529,2503); (2548,2520); (2589,2566); (2606,2600); (2619,2600); (2634,2614); (2571,2561); (2578,2561); (2648,2633); (2662,2650); (2670,2669);
(2682,2680); (2697,2692); (2707,2692); (2717,2703); (2732,2718); (2735,2718); (2748,2737); (2762,2750); (2781,2764); (2795,2796); (2822,2796); (2852,2820);
(2891,2849); (2899,2857); (2921,2877); (2925,2893); (2930,2893); (2940,2902); (2911,2876); (2944,2928); (2953,2928); (2959,2935); (2958,2939); (2961,2942);
(2964,2946); (2963,2947); (3837,3860); (3817,3852); (3830,3852); (3846,3872); (3865,3888); (3875,3899); (3887,3907); (3892,3910); (3886,3915); (3874,3912);
(3857,3900); (3833,3873); (3841,3873); (3849,3883); (3855,3890); (3822,3850); (3635,3693); (3675,3693); (3712,3742); (3718,3754); (3713,3752); (3746,3752);
(3766,3782); (3779,3811); (1741,1735); (1759,1754); (1776,1771); (1790,1771); (1810,1805); (1830,1820); (1848,1839); (1864,1859); (1871,1884); (1892,1884);
(1913,1905); (1962,1951); (2021,2005); (2081,2068); (2116,2068); (2142,2106); (2168,2139); (2199,2174); (2230,2211); (2263,2250); (2317,2315); (2462,2315);
(2573,2632); (2646,2704); (2700,2704); (2743,2769); (2810,2769); (2913,2889); (2978,2987); (3025,3043); (3062,3087); (3123,3087); (3159,3171); (3224,3171);
(3349,3282); (3419,3386); (3474,3451); (3523,3505); (3572,3561); (3578,3617); (1934,1923); (1941,1948); (1955,1948); (1966,1971); (1982,1971); (1991,1992);
(2004,1992); (2019,2020); (2031,2034); (2043,2047); (2060,2063); (2076,2077); (2078,2087); (2082,2095); (2098,2095); (2114,2109); (2129,2124); (2143,2137);
(2149,2159); (2165,2159); (2281,2259); (2295,2271); (2297,2271); (2310,2292); (2351,2325); (2360,2333); (2331,2314); (2339,2314); (2350,2319); (2373,2340);
(2369,2345); (2395,2366); (2516,2496); (2515,2497); (2512,2500); (2506,2490); (2508,2490); (2511,2495); (2505,2492); (2514,2491); (2523,2501); (2541,2513);
(2556,2529); (2596,2589); (2611,2606); (2623,2606); (2635,2619); (2647,2634); (2574,2571); (2583,2571); (2661,2648); (2673,2670); (2686,2682); (2698,2697);
(2708,2697); (2716,2707); (2728,2717); (2744,2732); (2745,2732); (2760,2748); (2777,2762); (2794,2795); (2818,2795); (2850,2822); (2886,2852); (2920,2891);
(2933,2899); (2952,2921); (2950,2925); (2955,2925); (2962,2930); (2967,2940); (2957,2944); (2973,2944); (2988,2953); (2982,2959); (2981,2958); (2980,2961);
(2976,2964); (3794,3817); (3810,3830); (3828,3846); (3839,3865); (3848,3875); (3864,3887); (3847,3886); (3836,3874); (3819,3857); (3796,3833); (3808,3833);
(3821,3841); (3826,3849); (3792,3822); (3589,3635); (3628,3635); (3667,3675); (3691,3712); (3685,3718); (3681,3713); (3704,3713); (3729,3746); (3748,3766);
(3760,3779); (1795,1776); (1817,1810); (1834,1830); (1853,1848); (2122,2081); (2150,2116); (2170,2142); (2194,2168); (2220,2199); (2238,2230); (2267,2263);
(2306,2317); (2359,2317); (2385,2573); (2440,2573); (2525,2573); (2595,2573); (2610,2646); (2645,2646); (2691,2700); (2719,2743); (2766,2743); (2831,2810);
(2918,2913); (2966,2978); (3012,3025); (3048,3062); (3106,3062); (3141,3159); (3196,3159); (3295,3224); (3380,3349); (3429,3419); (3453,3474); (3498,3474);
(3534,3523); (3547,3578); (1952,1941); (1961,1966)].
Definition airfoil_tree_9 : list (N * N) := [
(1978,1966); (1989,1991); (2002,1991); (2015,2019); (2029,2031); (2044,2043); (2061,2060); (2065,2078); (2071,2082); (2085,2082); (2105,2098); (2121,2114);
(2134,2129); (2307,2281); (2313,2295); (2318,2297); (2327,2310); (2379,2351); (2384,2360); (2390,2360); (2353,2331); (2356,2331); (2371,2339); (2383,2350);
(2400,2373); (2404,2369); (2527,2516); (2528,2515); (2526,2512); (2518,2506); (2519,2506); (2522,2508); (2530,2514); (2549,2523); (2560,2541); (2599,2596);
(2612,2611); (2624,2611); (2638,2623); (2649,2635); (2663,2647); (2575,2574); (2586,2574); (2676,2673); (2687,2686); (2696,2698); (2706,2698); (2714,2708);
(2727,2716); (2741,2728); (2754,2744); (2758,2744); (2772,2760); (2790,2794); (2814,2794); (2841,2818); (2882,2850); (2912,2886); (2943,2920); (2974,2952);
(2968,2950); (2975,2950); (2986,2955); (2992,2962); (2996,2967); (2979,2957); (2997,2973); (3005,2973); (3007,2988); (3010,2988); (3002,2982); (2999,2981);
(2995,2980); (3776,3794); (3791,3810); (3805,3828); (3823,3839); (3831,3848); (3816,3847); (3798,3836); (3780,3819); (3765,3796); (3775,3796); (3789,3808);
(3800,3821); (3771,3792); (3556,3589); (3583,3589); (3602,3628); (3637,3628); (3662,3667); (3652,3685); (3648,3681); (3673,3681); (3690,3704); (3709,3729);
(3730,3748); (3747,3760); (2156,2122); (2178,2150); (2196,2170); (2210,2194); (2225,2220); (2249,2238); (2270,2267); (2301,2306); (2346,2306); (2381,2385);
(2448,2440); (2521,2525); (2569,2595); (2565,2610); (2588,2610); (2601,2645); (2644,2645); (2679,2691); (3090,3048); (3126,3141); (3175,3141); (3243,3196);
(3332,3295); (3393,3380); (3426,3429); (3445,3453); (3472,3453); (3485,3498); (3508,3498); (3519,3547); (1976,1961); (1988,1989); (2001,1989); (2014,2015);
(2032,2029); (2046,2044); (2052,2065); (2330,2307); (2329,2313); (2337,2318); (2341,2327); (2412,2379); (2405,2384); (2407,2384); (2427,2390); (2361,2353);
(2372,2353); (2388,2356); (2420,2371); (2421,2371); (2426,2383); (2429,2383); (2416,2400); (2423,2400); (2547,2527); (2546,2528); (2545,2526); (2533,2518);
(2540,2519); (2550,2530); (2564,2549); (2602,2599); (2615,2612); (2627,2612); (2641,2624); (2651,2638); (2664,2649); (2577,2575); (2591,2575); (2678,2676);
(2685,2687); (2770,2754); (3003,2974); (3004,2968); (3009,2975); (3013,2986); (3017,2992); (3020,2996); (3016,2997); (3022,2997); (3024,3005); (3018,3007);
(3023,3007); (3015,3002); (3011,2999); (3763,3776); (3770,3791); (3786,3805); (3801,3823); (3784,3816); (3767,3798); (3755,3780); (3737,3765); (3750,3765);
(3761,3775); (3522,3556); (3548,3556); (3568,3583); (3587,3602); (3615,3602); (3633,3637); (3627,3652); (3621,3648); (3640,3648); (3661,3673); (3677,3690);
(3695,3709); (3711,3730); (3732,3747); (2182,2156); (2204,2178); (2216,2196); (2233,2225); (2254,2249); (2276,2270); (2303,2301); (2338,2301); (2380,2381);
(2468,2448); (2524,2521); (2517,2565); (2534,2565); (2552,2588); (2554,2601); (2592,2601); (2622,2644); (3154,3126); (3205,3175); (3278,3243); (3347,3332);
(3389,3393); (3416,3426); (3437,3445); (3455,3445); (3482,3485); (3489,3519); (1998,1988); (2016,2014); (2033,2032); (2354,2330); (2352,2329); (2363,2337);
(2422,2405); (2435,2407); (2376,2361); (2394,2361); (2415,2372); (2443,2388); (2455,2420); (2466,2420); (2474,2421); (2437,2426); (2444,2426); (2449,2429);
(2433,2416); (2558,2547); (2557,2546); (2555,2545); (2553,2533); (2567,2550); (2605,2602); (2616,2615); (2629,2615); (2642,2627); (2652,2641); (2666,2651);
(2579,2577); (2593,2577); (2677,2678); (3026,3004); (3029,3009); (3032,3013); (3040,3017); (3038,3020); (3034,3016); (3045,3016); (3035,3024); (3031,3018);
(3033,3018); (3027,3015); (3749,3763); (3758,3770); (3768,3786); (3756,3784); (3741,3767); (3723,3755); (3703,3737); (3722,3737); (3490,3522); (3517,3522);
(3540,3548); (3557,3568); (3580,3587); (3608,3587); (3600,3627); (3594,3621); (3613,3621); (3634,3640); (3650,3661); (3670,3677); (3686,3695); (3702,3711);
(2208,2182); (2221,2204); (2239,2233); (2256,2254); (2280,2276); (2305,2303); (2335,2303); (2364,2380); (2419,2380); (2476,2468); (2485,2517); (2502,2534);
(2509,2552); (2493,2554); (2532,2554); (2559,2592); (2563,2622); (3185,3154); (3231,3205); (3299,3278); (3345,3347); (3363,3389); (3394,3389); (3412,3416);
(3432,3437); (3452,3437); (3459,3482); (3458,3489); (2332,2354); (2355,2354); (2378,2354); (2398,2363); (2439,2422); (2414,2376); (2441,2394); (2470,2415);
(2504,2443); (2465,2455); (2481,2455); (2507,2466); (2536,2474); (2446,2437); (2452,2437); (2457,2444); (2572,2558); (2570,2557); (2568,2555); (2607,2605);
(2617,2616); (2630,2616); (2643,2629); (2653,2642); (2665,2652); (2581,2579); (2594,2579); (3049,3026); (3052,3029); (3058,3032); (3057,3040); (3068,3040);
(3065,3038); (3054,3034); (3060,3034); (3071,3045); (3053,3035); (3042,3031); (3050,3031); (3731,3749); (3743,3758); (3724,3756); (3706,3741); (3689,3723);
(3674,3703); (3687,3703); (3467,3490); (3491,3490); (3512,3517); (3533,3540); (3554,3557); (3574,3580); (3564,3594); (3584,3594); (3604,3613); (3622,3634);
(3638,3650); (3653,3670); (3672,3686); (2224,2208); (2246,2239); (2262,2256); (2285,2280); (2309,2305); (2334,2305); (2389,2364); (2438,2419); (2450,2485);
(2472,2502); (2461,2509); (3211,3185); (3253,3231)].
Definition airfoil_tree_10 : list (N * N) := [
(3312,3299); (3335,3345); (3350,3363); (3370,3363); (3374,3394); (3390,3394); (3408,3412); (3430,3432); (3421,3458); (3433,3458); (2413,2378); (2436,2398);
(2582,2572); (2608,2607); (2597,2581); (3072,3049); (3075,3052); (3081,3058); (3080,3057); (3097,3068); (3092,3065); (3073,3054); (3074,3054); (3093,3060);
(3104,3071); (3069,3053); (3061,3042); (3710,3731); (3694,3724); (3678,3706); (3665,3689); (3645,3674); (3657,3674); (3443,3467); (3466,3467); (3488,3491);
(3504,3512); (3526,3533); (3544,3554); (3539,3564); (3555,3564); (3571,3584); (3592,3604); (3611,3622); (3625,3638); (3641,3653); (3230,3211); (3267,3253);
(3310,3312); (3329,3335); (3338,3350); (3358,3350); (3359,3374); (3372,3374); (3387,3390); (3396,3408); (3403,3430); (3391,3421); (3402,3421); (3413,3433);
(3099,3072); (3102,3075); (3109,3081); (3101,3080); (3111,3097); (3110,3092); (3095,3073); (3098,3073); (3107,3074); (3117,3093); (3128,3104); (3078,3069);
(3630,3645); (3415,3443); (3442,3443); (3462,3466); (3481,3488); (3499,3504); (3518,3526); (3511,3539); (3530,3539); (3546,3555); (3562,3571); (3582,3592);
(3598,3611); (3614,3625); (3247,3230); (3271,3267); (3288,3310); (3311,3310); (3325,3329); (3331,3338); (3343,3338); (3348,3359); (3355,3359); (3367,3372);
(3375,3387); (3382,3396); (3366,3391); (3379,3391); (3383,3402); (3388,3413); (3116,3099); (3122,3102); (3127,3109); (3114,3101); (3129,3111); (3130,3110);
(3103,3095); (3113,3095); (3124,3098); (3133,3107); (3143,3117); (3148,3128); (3150,3128); (3397,3415); (3420,3415); (3441,3442); (3457,3462); (3477,3481);
(3496,3499); (3256,3247); (3261,3271); (3268,3288); (3289,3288); (3298,3311); (3315,3311); (3318,3331); (3333,3331); (3337,3348); (3340,3355); (3342,3367);
(3346,3375); (3364,3375); (3334,3366); (3336,3366); (3360,3366); (3357,3379); (3362,3383); (3369,3388); (3136,3116); (3138,3122); (3140,3127); (3147,3129);
(3121,3103); (3132,3113); (3156,3124); (3160,3133); (3168,3143); (3169,3148); (3174,3148); (3184,3150); (3274,3268); (3290,3289); (3292,3298); (3296,3298);
(3303,3298); (3307,3318); (3321,3318); (3323,3337); (3322,3340); (3319,3342); (3320,3346); (3327,3346); (3308,3334); (3309,3334); (3297,3336); (3328,3336);
(3317,3357); (3330,3362); (3152,3136); (3153,3138); (3151,3140); (3166,3147); (3142,3121); (3157,3132); (3181,3156); (3182,3156); (3188,3160); (3193,3168);
(3180,3169); (3192,3169); (3195,3174); (3206,3174); (3208,3184); (3280,3274); (3283,3292); (3294,3296); (3293,3307); (3306,3307); (3304,3323); (3302,3322);
(3300,3319); (3301,3320); (3265,3308); (3269,3308); (3260,3309); (3250,3297); (3276,3297); (3259,3317); (3279,3317); (3172,3152); (3170,3153); (3186,3166);
(3162,3142); (3178,3157); (3200,3181); (3207,3181); (3202,3182); (3213,3188); (3219,3193); (3199,3180); (3215,3192); (3214,3195); (3220,3195); (3225,3206);
(3226,3208); (3270,3283); (3266,3294); (3263,3293); (3291,3293); (3287,3304); (3281,3302); (3272,3300); (3235,3265); (3241,3265); (3245,3269); (3227,3260);
(3221,3250); (3236,3250); (3223,3259); (3239,3259); (3189,3172); (3203,3186); (3187,3162); (3204,3178); (3216,3202); (3218,3199); (3222,3199); (3233,3215);
(3234,3214); (3240,3220); (3244,3225); (3248,3226); (3252,3270); (3255,3270); (3249,3266); (3258,3263); (3254,3287); (3210,3223); (3237,3218); (3242,3222)].
(** A spanning tree (child, parent) rooted at 0, vertices counted from 0. *)
Definition airfoil_tree : list (N * N) := airfoil_tree_0 ++ airfoil_tree_1 ++ airfoil_tree_2 ++ airfoil_tree_3 ++ airfoil_tree_4 ++ airfoil_tree_5 ++ airfoil_tree_6 ++ airfoil_tree_7 ++ airfoil_tree_8 ++ airfoil_tree_9 ++ airfoil_tree_10.
