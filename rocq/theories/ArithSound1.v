(** Rules proved by the shared automation; see ArithTac.v. *)
From Coq Require Import ZArith Lia Bool List ZifyBool Setoid Morphisms.
From Verif Require Import Word CmpModel IR PatternMatch ArithRules ArithTac.
Import ListNotations.
Local Open Scope Z_scope.
Lemma ok91 : rule_ok Wr R91. Proof. std R91; pre; ea. Qed.
Lemma ok96 : rule_ok Wr R96. Proof. std R96; pre; ea. Qed.
Lemma ok101 : rule_ok Wr R101. Proof. std R101; pre; ea. Qed.
Lemma ok104 : rule_ok Wr R104. Proof. std R104; pre; ea. Qed.
Lemma ok107 : rule_ok Wr R107. Proof. std R107; pre; ea. Qed.
Lemma ok112 : rule_ok Wr R112. Proof. std R112; pre; ea. Qed.
Lemma ok117 : rule_ok Wr R117. Proof. std R117; pre; ea. Qed.
Lemma ok122 : rule_ok Wr R122. Proof. std R122; pre; ea. Qed.
Lemma ok134 : rule_ok Wr R134. Proof. std R134; pre; ea. Qed.
Lemma ok139s : rule_ok Wr R139s. Proof. std R139s; pre; ea. Qed.
Lemma ok139u : rule_ok Wr R139u. Proof. std R139u; pre; ea. Qed.
Lemma ok144s : rule_ok Wr R144s. Proof. std R144s; pre; ea. Qed.
Lemma ok144u : rule_ok Wr R144u. Proof. std R144u; pre; ea. Qed.
Lemma ok149s : rule_ok Wr R149s. Proof. std R149s; pre; ea. Qed.
Lemma ok149u : rule_ok Wr R149u. Proof. std R149u; pre; ea. Qed.
Lemma ok154 : rule_ok Wr R154. Proof. std R154; pre; ea. Qed.
Lemma ok192s : rule_ok Wr R192s. Proof. std R192s; pre; ea. Qed.
Lemma ok192u : rule_ok Wr R192u. Proof. std R192u; pre; ea. Qed.
Lemma ok195s : rule_ok Wr R195s. Proof. std R195s; pre; ea. Qed.
Lemma ok195u : rule_ok Wr R195u. Proof. std R195u; pre; ea. Qed.
Lemma ok198s : rule_ok Wr R198s. Proof. std R198s; pre; ea. Qed.
Lemma ok198u : rule_ok Wr R198u. Proof. std R198u; pre; ea. Qed.
Lemma ok202 : rule_ok Wr R202. Proof. std R202; pre; ea. Qed.
Lemma ok205 : rule_ok Wr R205. Proof. std R205; pre; ea. Qed.
Lemma ok208 : rule_ok Wr R208. Proof. std R208; pre; ea. Qed.
Lemma ok211 : rule_ok Wr R211. Proof. std R211; pre; ea. Qed.
Lemma ok214 : rule_ok Wr R214. Proof. std R214; pre; ea. Qed.
Lemma ok217 : rule_ok Wr R217. Proof. std R217; pre; ea. Qed.
Lemma ok219 : rule_ok Wr R219. Proof. std R219; pre; ea. Qed.
Lemma ok222 : rule_ok Wr R222. Proof. std R222; pre; ea. Qed.
Lemma ok225 : rule_ok Wr R225. Proof. std R225; pre; ea. Qed.
Lemma ok228 : rule_ok Wr R228. Proof. std R228; pre; ea. Qed.
Lemma ok231 : rule_ok Wr R231. Proof. std R231; pre; ea. Qed.
Lemma ok233 : rule_ok Wr R233. Proof. std R233; pre; ea. Qed.
Lemma ok239 : rule_ok Wr R239. Proof. std R239; pre; ea. Qed.
Lemma ok250 : rule_ok Wr R250. Proof. std R250; pre; ea. Qed.
Lemma ok253 : rule_ok Wr R253. Proof. std R253; pre; ea. Qed.
Lemma ok257 : rule_ok Wr R257. Proof. std R257; pre; ea. Qed.
Lemma ok261 : rule_ok Wr R261. Proof. std R261; pre; ea. Qed.
Lemma ok270 : rule_ok Wr R270. Proof. std R270; pre; ea. Qed.
Lemma ok273 : rule_ok Wr R273. Proof. std R273; pre; ea. Qed.
Lemma ok341 : rule_ok Wr R341. Proof. std R341; pre; ea. Qed.
Lemma ok346 : rule_ok Wr R346. Proof. std R346; pre; ea. Qed.
Lemma ok351 : rule_ok Wr R351. Proof. std R351; pre; ea. Qed.
Lemma ok365 : rule_ok Wr R365. Proof. std R365; pre; ea. Qed.
Lemma ok368 : rule_ok Wr R368. Proof. std R368; pre; ea. Qed.
Lemma ok371 : rule_ok Wr R371. Proof. std R371; pre; ea. Qed.
Lemma ok374 : rule_ok Wr R374. Proof. std R374; pre; ea. Qed.
Lemma ok378 : rule_ok Wr R378. Proof. std R378; pre; ea. Qed.
Lemma ok384 : rule_ok Wr R384. Proof. std R384; pre; ea. Qed.
Lemma ok397 : rule_ok Wr R397. Proof. std R397; pre; ea. Qed.
Lemma ok414 : rule_ok Wr R414. Proof. std R414; pre; ea. Qed.
Lemma ok518 : rule_ok Wr R518. Proof. std R518; pre; ea. Qed.
Lemma ok521 : rule_ok Wr R521. Proof. std R521; pre; ea. Qed.
Lemma ok525 : rule_ok Wr R525. Proof. std R525; pre; ea. Qed.
Lemma ok529 : rule_ok Wr R529. Proof. std R529; pre; ea. Qed.
Lemma ok533 : rule_ok Wr R533. Proof. std R533; pre; ea. Qed.
Lemma ok539 : rule_ok Wr R539. Proof. std R539; pre; ea. Qed.
Lemma ok541 : rule_ok Wr R541. Proof. std R541; pre; ea. Qed.
Lemma ok545 : rule_ok Wr R545. Proof. std R545; pre; ea. Qed.
Lemma ok547 : rule_ok Wr R547. Proof. std R547; pre; ea. Qed.
Lemma ok563 : rule_ok Wr R563. Proof. std R563; pre; ea. Qed.
Lemma ok572 : rule_ok Wr R572. Proof. std R572; pre; ea. Qed.
Lemma ok577 : rule_ok Wr R577. Proof. std R577; pre; ea. Qed.
Lemma ok582 : rule_ok Wr R582. Proof. std R582; pre; ea. Qed.
Lemma ok587 : rule_ok Wr R587. Proof. std R587; pre; ea. Qed.
Lemma ok862 : rule_ok Wr R862. Proof. std R862; pre; ea. Qed.
Lemma ok867 : rule_ok Wr R867. Proof. std R867; pre; ea. Qed.
Lemma ok872 : rule_ok Wr R872. Proof. std R872; pre; ea. Qed.
Lemma ok877 : rule_ok Wr R877. Proof. std R877; pre; ea. Qed.
Lemma ok885 : rule_ok Wr R885. Proof. std R885; pre; ea. Qed.
Lemma ok889 : rule_ok Wr R889. Proof. std R889; pre; ea. Qed.
Lemma ok894 : rule_ok Wr R894. Proof. std R894; pre; ea. Qed.
Lemma ok947 : rule_ok Wr R947. Proof. std R947; pre; ea. Qed.
Lemma ok953 : rule_ok Wr R953. Proof. std R953; pre; ea. Qed.
Lemma ok980 : rule_ok Wr R980. Proof. std R980; pre; ea. Qed.
Lemma ok984 : rule_ok Wr R984. Proof. std R984; pre; ea. Qed.
Lemma ok990 : rule_ok Wr R990. Proof. std R990; pre; ea. Qed.
Lemma ok995 : rule_ok Wr R995. Proof. std R995; pre; ea. Qed.
Lemma ok998 : rule_ok Wr R998. Proof. std R998; pre; ea. Qed.
Lemma ok1001 : rule_ok Wr R1001. Proof. std R1001; pre; ea. Qed.
Lemma ok1004 : rule_ok Wr R1004. Proof. std R1004; pre; ea. Qed.
Lemma ok1008 : rule_ok Wr R1008. Proof. std R1008; pre; ea. Qed.
Lemma ok1031 : rule_ok Wr R1031. Proof. std R1031; pre; ea. Qed.
Lemma ok1092 : rule_ok Wr R1092. Proof. std R1092; pre; ea. Qed.
Lemma ok1096 : rule_ok Wr R1096. Proof. std R1096; pre; ea. Qed.
Lemma ok1100 : rule_ok Wr R1100. Proof. std R1100; pre; ea. Qed.
Lemma ok1104 : rule_ok Wr R1104. Proof. std R1104; pre; ea. Qed.
Lemma ok1108 : rule_ok Wr R1108. Proof. std R1108; pre; ea. Qed.
Lemma ok1113 : rule_ok Wr R1113. Proof. std R1113; pre; ea. Qed.
Lemma ok1122 : rule_ok Wr R1122. Proof. std R1122; pre; ea. Qed.
Lemma ok1127 : rule_ok Wr R1127. Proof. std R1127; pre; ea. Qed.
Lemma ok1130 : rule_ok Wr R1130. Proof. std R1130; pre; ea. Qed.
Lemma ok1133 : rule_ok Wr R1133. Proof. std R1133; pre; ea. Qed.
Lemma ok1136 : rule_ok Wr R1136. Proof. std R1136; pre; ea. Qed.
Lemma ok1157 : rule_ok Wr R1157. Proof. std R1157; pre; ea. Qed.
Lemma ok1247 : rule_ok Wr R1247. Proof. std R1247; pre; ea. Qed.
