(** The inverse error function (error.rs:90-182) and the normal quantile (normal.rs:160-208) against
    the error function. *)
From Coq Require Import Arith Lia List Bool ZArith QArith Qreals Reals Lra Psatz.
From Coquelicot Require Import Coquelicot.
From Verif Require Import Outcome Scalar RealOps Elem_model Special_model Stat_model.
From Verif Require Import Stat_spec Continuous_proofs Gauss_proofs Normal_proofs Special_proofs.
From Verif Require Import Lanczos_proofs LanczosAcc_proofs LnGammaAcc_proofs PolyDom_proofs QuantGen_proofs.
Import ListNotations.
Local Open Scope R_scope.

(** ** The coefficient tables as integer polynomials *)
(** Exact (scaled by 10000000000000000000) and rounded (scaled by 2^36). *)
Definition e1_xp : list Z := [160304955844066229311; 907849592629603266500; 1864491486162098739100; 1690014273464238242000; 654546628479448704800; 86421301158724779400; 1760587821390590000]%Z.
Definition e1_xq : list Z := [147806470715138316110; 913741670242603139360; 2101579048620531771400; 2221025412185513236600; 1076045391605512383000; 206010730328265443000; 10000000000000000000]%Z.
Definition e1_p : list Z := [1101607268379; 6238694896050; 12812687930779; 11613689654883; 4498010180842; 593882659447; 12098667383]%Z.
Definition e1_q : list Z := [1015718332574; 6279184945095; 14441941254054; 15262770414275; 7394527625532; 1415694959016; 68719476736]%Z.
(** Exact (scaled by 10000000000000000000) and rounded (scaled by 2^46). *)
Definition e2_xp : list Z := [152389263440726128; 3444556924136125216; 29344398672542478687; 117635057052178273020; 226552928231011041930; 191213343965803301630; 54789276195983187690; 2375166890244480000]%Z.
Definition e2_xq : list Z := [108465169602059954; 2610628885843078511; 24068318104393757995; 106951299733870144690; 237167155215965810250; 246401589439172848830; 100143763497830708350; 10000000000000000000]%Z.
Definition e2_p : list Z := [1072344109448; 24238914499994; 206492848323552; 827783123602964; 1594224504938869; 1345544288488528; 385545256031452; 16713751127887]%Z.
Definition e2_q : list Z := [763255777191; 18370667621071; 169365731947472; 752602865044137; 1668915487273663; 1733897041221495; 704699087456734; 70368744177664]%Z.
(** Exact (scaled by 100000000000000000000000) and rounded (scaled by 2^40). *)
Definition e3_xn : list Z := [0; 0; 88606273929651546814900; 362700248309587089300200; 687380880735438398029130; 854756118221678278251850; 716785479491079968100010; 232686957889196908064140; 26987802736243283544516; 1053261131423333816425; 10501311523733438116]%Z.
Definition e3_xd : list Z := [100000000000000000000000; 409938790763680153614500; 819224097472699078939130; 1194878791843539666784380; 1118158610405690782734510; 760780287858012770643510; 235014363979702532591230; 27019862373751554845553; 1053286230093332753111; 10501266687030337690]%Z.
Definition e3_n : list Z := [0; 0; 974236284796; 3987931404136; 7557832710795; 9398142908974; 7881139693214; 2558420158310; 296734029166; 11580728611; 115463141]%Z.
Definition e3_d : list Z := [1099511627776; 4507324671211; 9007464209255; 13137831254149; 12294283938389; 8364867726827; 2584010258901; 297086528608; 11581004574; 115462648]%Z.
(** Exact (scaled by 500000000000000000) and rounded (scaled by 2^36). *)
Definition n1_xp : list Z := [1693566436398183304; 66570833945892188725; 985795475153275721350; 6865846882754730562500; 22960976965774935728500; 33632885463504350426500; 16715287791794064052500; 1254540464365061336350]%Z.
Definition n1_xq : list Z := [500000000000000000; 21156665350800455626; 343593503746028954150; 2697098010712375553850; 10606897150793297933500; 19653947900046355305000; 14364542867860971337000; 2613247639426427280500]%Z.
Definition n1_p : list Z := [232761998654; 9149425749282; 135486698442499; 943634810264804; 3155732644870805; 4622468580347680; 2297331661087474; 172422728510611]%Z.
Definition n1_q : list Z := [68719476736; 2907749944771; 47223131574632; 370686328003722; 1457800843990169; 2701218030975583; 1974247738862493; 359162020725943]%Z.
(** Exact (scaled by 25000000000000000000000000000) and rounded (scaled by 2^44). *)
Definition n2_xn : list Z := [35585927768742089433500000000; 115758446153913632397500000000; 144237430536517285137500000000; 91196208119080115126000000000; 31761456311309209564500000000; 6044518129436265294250000000; 568096124731729614582500000; 19363625356958535191000000]%Z.
Definition n2_xd : list Z := [25000000000000000000000000000; 51329790665943970546750000000; 41909620754595096235000000000; 17244183374627500113750000000; 3702599410687001864750000000; 379966664090411429915000000; 13689845212488362365000000; 26268751791110421081]%Z.
Definition n2_n : list Z := [25041370474834; 81457764838086; 101498068502678; 64173626391046; 22350137938806; 4253451499276; 399762108696; 13625939991]%Z.
Definition n2_d : list Z := [17592186044416; 36120129080649; 29491273814630; 12134515284419; 2605472707230; 267377769814; 9633372156; 18485]%Z.
(** Exact (scaled by 25000000000000000000000000000000000). *)
Definition n3_n : list Z := [166447616087527594430000000000000000; 136594622779102859247500000000000000; 44620663497932283395000000000000000; 7414014295712622280750000000000000; 663304738164403077325000000000000; 31066523684701960965000000000000; 677888892185871894537500000000; 5025835998230720331625000000]%Z.
Definition n3_d : list Z := [25000000000000000000000000000000000; 14995805163897198442250000000000000; 3423247023068395132750000000000000; 371884032271265371312500000000000; 19671728278640331477500000000000; 461579579377513670450000000000; 3553779395791114721750000000; 51106577584748494641]%Z.

(** ** The residual inequality on each range, for the rounded coefficients *)
Definition e1_pieces : list (Z * Z * Z * Z * nat) := [(0, 1, 1, 8, 5%nat); (1, 8, 1, 4, 4%nat); (3, 8, 3, 16, 3%nat)]%Z.
Lemma e1_ck : ca_ck 2 e1_p e1_q 9 16 1500000000 e1_pieces = true.
Proof. vm_compute. reflexivity. Qed.
Definition e2_pieces : list (Z * Z * Z * Z * nat) := [(0, 1, 1, 32, 4%nat); (1, 32, 1, 16, 5%nat); (3, 32, 1, 8, 7%nat); (7, 32, 25, 256, 4%nat)]%Z.
Lemma e2_ck : ca_ck 2 e2_p e2_q 225 256 800000000 e2_pieces = true.
Proof. vm_compute. reflexivity. Qed.
Definition e3_pieces : list (Z * Z * Z * Z * nat) := [(33, 20, 67, 20, 23%nat)]%Z.
Lemma e3_ck : ta_ck 2 e3_n e3_d 0 1 10000000000 e3_pieces = true.
Proof. vm_compute. reflexivity. Qed.
Definition n1_pieces : list (Z * Z * Z * Z * nat) := [(0, 1, 1, 64, 4%nat); (1, 64, 1, 16, 8%nat); (5, 64, 1, 16, 6%nat); (9, 64, 1, 25, 3%nat)]%Z.
Lemma n1_ck : ca_ck 1 n1_p n1_q 289 1600 550000000 n1_pieces = true.
Proof. vm_compute. reflexivity. Qed.
Definition n2_pieces : list (Z * Z * Z * Z * nat) := [(0, 1, 1, 1, 10%nat); (1, 1, 1, 1, 10%nat); (2, 1, 1, 1, 5%nat); (3, 1, 2, 5, 2%nat)]%Z.
Lemma n2_ck : ta_ck 1 n2_n n2_d 8 5 30000000000 n2_pieces = true.
Proof. vm_compute. reflexivity. Qed.

(** ** The rounded coefficients against the shipped ones *)
Lemma e1_cl : close_ck 30000000000 19073486328125 131072 e1_p e1_xp (0, 1, 9, 16, 4%nat)%Z && close_ck 30000000000 19073486328125 131072 e1_q e1_xq (0, 1, 9, 16, 4%nat)%Z = true.
Proof. vm_compute. reflexivity. Qed.
Lemma e2_cl : close_ck 100000000000 19073486328125 134217728 e2_p e2_xp (0, 1, 81, 256, 6%nat)%Z && close_ck 100000000000 19073486328125 134217728 e2_q e2_xq (0, 1, 81, 256, 6%nat)%Z = true.
Proof. vm_compute. reflexivity. Qed.
Lemma e3_cl : close_ck 50000000000 11920928955078125 131072 e3_n e3_xn (33, 20, 67, 20, 5%nat)%Z && close_ck 50000000000 11920928955078125 131072 e3_d e3_xd (33, 20, 67, 20, 5%nat)%Z = true.
Proof. vm_compute. reflexivity. Qed.
Lemma n1_cl : close_ck 50000000000 3814697265625 524288 n1_p n1_xp (0, 1, 289, 1600, 6%nat)%Z && close_ck 50000000000 3814697265625 524288 n1_q n1_xq (0, 1, 289, 1600, 6%nat)%Z = true.
Proof. vm_compute. reflexivity. Qed.
Lemma n2_cl : close_ck 100000000000 186264514923095703125 131072 n2_n n2_xn (0, 1, 17, 5, 4%nat)%Z && close_ck 100000000000 186264514923095703125 131072 n2_d n2_xd (0, 1, 17, 5, 4%nat)%Z = true.
Proof. vm_compute. reflexivity. Qed.
(** The tails increase. *)
Definition up_ck (n d : list Z) : bool := pos_ck d && let a := ta_a n d in pnn a && existsb (Z.ltb 0) a.
Lemma e3_up : up_ck e3_xn e3_xd = true.
Proof. vm_compute. reflexivity. Qed.
Lemma n3_up : up_ck n3_n n3_d = true.
Proof. vm_compute. reflexivity. Qed.

