(** Transcription of crates/aether_catalogs/src/wmm/wmm_generated.rs, in tenths: every number there
    has one decimal. *)
From Coq Require Import Reals List ZArith.
From Verif Require Import WmmModel.
Import ListNotations.
Local Open Scope Z_scope.

(** wmm_generated.rs:7-98; degree, order, g, h, g_dot, h_dot *)
Definition wmm_records_z : list (nat * nat * Z * Z * Z * Z) := [
  (1%nat, 0%nat, (-293518), 0, 120, 0);
  (1%nat, 1%nat, (-14108), 45454, 97, (-215));
  (2%nat, 0%nat, (-25566), 0, (-116), 0);
  (2%nat, 1%nat, 29511, (-31336), (-52), (-277));
  (2%nat, 2%nat, 16493, (-8151), (-80), (-121));
  (3%nat, 0%nat, 13610, 0, (-13), 0);
  (3%nat, 1%nat, (-24041), (-566), (-42), 40);
  (3%nat, 2%nat, 12438, 2375, 4, (-3));
  (3%nat, 3%nat, 4536, (-5495), (-156), (-41));
  (4%nat, 0%nat, 8950, 0, (-16), 0);
  (4%nat, 1%nat, 7995, 2786, (-24), (-11));
  (4%nat, 2%nat, 557, (-1339), (-60), 41);
  (4%nat, 3%nat, (-2811), 2120, 56, 16);
  (4%nat, 4%nat, 121, (-3756), (-70), (-44));
  (5%nat, 0%nat, (-2332), 0, 6, 0);
  (5%nat, 1%nat, 3689, 454, 14, (-5));
  (5%nat, 2%nat, 1872, 2202, 0, 22);
  (5%nat, 3%nat, (-1387), (-1229), 6, 4);
  (5%nat, 4%nat, (-1420), 430, 22, 17);
  (5%nat, 5%nat, 209, 1061, 9, 19);
  (6%nat, 0%nat, 644, 0, (-2), 0);
  (6%nat, 1%nat, 638, (-184), (-4), 3);
  (6%nat, 2%nat, 769, 168, 9, (-16));
  (6%nat, 3%nat, (-1157), 488, 12, (-4));
  (6%nat, 4%nat, (-409), (-598), (-9), 9);
  (6%nat, 5%nat, 149, 109, 3, 7);
  (6%nat, 6%nat, (-607), 727, 9, 9);
  (7%nat, 0%nat, 795, 0, 0, 0);
  (7%nat, 1%nat, (-770), (-489), (-1), 6);
  (7%nat, 2%nat, (-88), (-144), (-1), 5);
  (7%nat, 3%nat, 593, (-10), 5, (-8));
  (7%nat, 4%nat, 158, 234, (-1), 0);
  (7%nat, 5%nat, 25, (-74), (-8), (-10));
  (7%nat, 6%nat, (-111), (-251), (-8), 6);
  (7%nat, 7%nat, 142, (-23), 8, (-2));
  (8%nat, 0%nat, 232, 0, (-1), 0);
  (8%nat, 1%nat, 108, 71, 2, (-2));
  (8%nat, 2%nat, (-175), (-126), 0, 5);
  (8%nat, 3%nat, 20, 114, 5, (-4));
  (8%nat, 4%nat, (-217), (-97), (-1), 4);
  (8%nat, 5%nat, 169, 127, 3, (-5));
  (8%nat, 6%nat, 150, 7, 2, (-6));
  (8%nat, 7%nat, (-168), (-52), 0, 3);
  (8%nat, 8%nat, 9, 39, 2, 2);
  (9%nat, 0%nat, 46, 0, 0, 0);
  (9%nat, 1%nat, 78, (-248), (-1), (-3));
  (9%nat, 2%nat, 30, 122, 1, 3);
  (9%nat, 3%nat, (-2), 83, 3, (-3));
  (9%nat, 4%nat, (-25), (-33), (-3), 3);
  (9%nat, 5%nat, (-131), (-52), 0, 2);
  (9%nat, 6%nat, 24, 72, 3, (-1));
  (9%nat, 7%nat, 86, (-6), (-1), (-2));
  (9%nat, 8%nat, (-87), 8, 1, 4);
  (9%nat, 9%nat, (-129), 100, (-1), 1);
  (10%nat, 0%nat, (-13), 0, 1, 0);
  (10%nat, 1%nat, (-64), 33, 0, 0);
  (10%nat, 2%nat, 2, 0, 1, 0);
  (10%nat, 3%nat, 20, 24, 1, (-2));
  (10%nat, 4%nat, (-10), 53, 0, 1);
  (10%nat, 5%nat, (-6), (-91), (-3), (-1));
  (10%nat, 6%nat, (-9), 4, 0, 1);
  (10%nat, 7%nat, 15, (-42), (-1), 0);
  (10%nat, 8%nat, 9, (-38), (-1), (-1));
  (10%nat, 9%nat, (-27), 9, 0, 2);
  (10%nat, 10%nat, (-39), (-91), 0, 0);
  (11%nat, 0%nat, 29, 0, 0, 0);
  (11%nat, 1%nat, (-15), 0, 0, 0);
  (11%nat, 2%nat, (-25), 29, 0, 1);
  (11%nat, 3%nat, 24, (-6), 0, 0);
  (11%nat, 4%nat, (-6), 2, 0, 1);
  (11%nat, 5%nat, (-1), 5, (-1), 0);
  (11%nat, 6%nat, (-6), (-3), 0, 0);
  (11%nat, 7%nat, (-1), (-12), 0, 1);
  (11%nat, 8%nat, 11, (-17), (-1), 0);
  (11%nat, 9%nat, (-10), (-29), (-1), 0);
  (11%nat, 10%nat, (-2), (-18), (-1), 0);
  (11%nat, 11%nat, 26, (-23), (-1), 0);
  (12%nat, 0%nat, (-20), 0, 0, 0);
  (12%nat, 1%nat, (-2), (-13), 0, 0);
  (12%nat, 2%nat, 3, 7, 0, 0);
  (12%nat, 3%nat, 12, 10, 0, (-1));
  (12%nat, 4%nat, (-13), (-14), 0, 1);
  (12%nat, 5%nat, 6, 0, 0, 0);
  (12%nat, 6%nat, 6, 6, 1, 0);
  (12%nat, 7%nat, 5, (-1), 0, 0);
  (12%nat, 8%nat, (-1), 8, 0, 0);
  (12%nat, 9%nat, (-4), 1, 0, 0);
  (12%nat, 10%nat, (-2), (-10), (-1), 0);
  (12%nat, 11%nat, (-13), 1, 0, 0);
  (12%nat, 12%nat, (-7), 2, (-1), (-1))].
(** wmm_generated.rs:100-192 *)
Definition wmm_g_z : list Z := [0; (-293518); (-14108); (-25566); 29511; 16493; 13610; (-24041); 12438; 4536; 8950; 7995; 557; (-2811); 121; (-2332); 3689; 1872; (-1387); (-1420); 209; 644; 638; 769; (-1157); (-409); 149; (-607); 795; (-770); (-88); 593; 158; 25; (-111); 142; 232; 108; (-175); 20; (-217); 169; 150; (-168); 9; 46; 78; 30; (-2); (-25); (-131); 24; 86; (-87); (-129); (-13); (-64); 2; 20; (-10); (-6); (-9); 15; 9; (-27); (-39); 29; (-15); (-25); 24; (-6); (-1); (-6); (-1); 11; (-10); (-2); 26; (-20); (-2); 3; 12; (-13); 6; 6; 5; (-1); (-4); (-2); (-13); (-7)].
(** wmm_generated.rs:194-286 *)
Definition wmm_h_z : list Z := [0; 0; 45454; 0; (-31336); (-8151); 0; (-566); 2375; (-5495); 0; 2786; (-1339); 2120; (-3756); 0; 454; 2202; (-1229); 430; 1061; 0; (-184); 168; 488; (-598); 109; 727; 0; (-489); (-144); (-10); 234; (-74); (-251); (-23); 0; 71; (-126); 114; (-97); 127; 7; (-52); 39; 0; (-248); 122; 83; (-33); (-52); 72; (-6); 8; 100; 0; 33; 0; 24; 53; (-91); 4; (-42); (-38); 9; (-91); 0; 0; 29; (-6); 2; 5; (-3); (-12); (-17); (-29); (-18); (-23); 0; (-13); 7; 10; (-14); 0; 6; (-1); 8; 1; (-10); 1; 2].
(** wmm_generated.rs:288-380 *)
Definition wmm_g_dot_z : list Z := [0; 120; 97; (-116); (-52); (-80); (-13); (-42); 4; (-156); (-16); (-24); (-60); 56; (-70); 6; 14; 0; 6; 22; 9; (-2); (-4); 9; 12; (-9); 3; 9; 0; (-1); (-1); 5; (-1); (-8); (-8); 8; (-1); 2; 0; 5; (-1); 3; 2; 0; 2; 0; (-1); 1; 3; (-3); 0; 3; (-1); 1; (-1); 1; 0; 1; 1; 0; (-3); 0; (-1); (-1); 0; 0; 0; 0; 0; 0; 0; (-1); 0; 0; (-1); (-1); (-1); (-1); 0; 0; 0; 0; 0; 0; 1; 0; 0; 0; (-1); 0; (-1)].
(** wmm_generated.rs:382-474 *)
Definition wmm_h_dot_z : list Z := [0; 0; (-215); 0; (-277); (-121); 0; 40; (-3); (-41); 0; (-11); 41; 16; (-44); 0; (-5); 22; 4; 17; 19; 0; 3; (-16); (-4); 9; 7; 9; 0; 6; 5; (-8); 0; (-10); 6; (-2); 0; (-2); 5; (-4); 4; (-5); (-6); 3; 2; 0; (-3); 3; (-3); 3; 2; (-1); (-2); 4; 1; 0; 0; 0; (-2); 1; (-1); 1; 0; (-1); 2; 0; 0; 0; 1; 0; 1; 0; 0; 1; 0; 0; 0; 0; 0; 0; 0; (-1); 1; 0; 0; 0; 0; 0; 0; 0; (-1)].

Local Open Scope R_scope.
Definition tenths (z : Z) : R := IZR z / 10.
Definition record_of (r : nat * nat * Z * Z * Z * Z) : record :=
  let '(d, o, g, h, gd, hd) := r in mkRec d o (tenths g) (tenths h) (tenths gd) (tenths hd).
Definition table_of (l : list Z) : table := fun i => tenths (nth i l 0%Z).
(** wmm/mod.rs:185-193; the epoch is 2025.0 (wmm_generated.rs:2) *)
Definition wmm_2025 : model :=
  mkWmm 2025 wmm_max_degree (map record_of wmm_records_z)
    (table_of wmm_g_z) (table_of wmm_h_z) (table_of wmm_g_dot_z) (table_of wmm_h_dot_z).
