(** Proofs about the random method (irreps.py:243-405). *)
From mathcomp Require Import all_ssreflect all_algebra all_fingroup.
From Verif Require Import Py GroupModel GroupSpec RepSpec RepModel RepTheory IsoTheory IndexRepSpec IndexGroup
  CompleteTheory MultTheory RepProofs RandomModel.
Import Order.TTheory GRing.Theory Num.Theory.
Set Implicit Arguments.
Unset Strict Implicit.
Unset Printing Implicit Defensive.
Local Open Scope ring_scope.

(** * Grouping of eigenvectors *)
Section Grouping.
Variables (C : numClosedFieldType) (rtol : C).
Hypothesis rtol0 : 0 <= rtol.
Local Notation close := (np_isclose rtol).

Lemma tol_ge0 (b : C) : 0 <= (10 ^ 8)%:R^-1 + rtol * `|b|.
Proof. by rewrite addr_ge0 ?invr_ge0 ?ler0n // mulr_ge0. Qed.
Lemma close_refl a : close a a.
Proof. by rewrite /np_isclose subrr normr0 tol_ge0. Qed.

Variable N : nat.
Implicit Types sp : seq (C * seq 'cV[C]_N).

Lemma add_eigE ev (v : 'cV[C]_N) sp :
  let k := find (close ev) (map fst sp) in
  add_eig rtol ev v sp =
  if (k < size sp)%N then [seq (if x.1 == k then (x.2.1, rcons x.2.2 v) else x.2) | x <- zip (iota 0 (size sp)) sp]
  else rcons sp (ev, [:: v]).
Proof.
elim: sp => [|[ev2 vs] sp IH] //=; case: (close ev ev2) => /=.
  congr (_ :: _); rewrite -[LHS](map_id) -{1}(unzip2_zip (s := iota 1 (size sp)) (t := sp)) ?size_iota // -map_comp.
  apply/eq_in_map => -[i y] /= zi; have := map_f fst zi; rewrite -/(unzip1 _) unzip1_zip ?size_iota //= mem_iota {zi}.
  by case: i.
rewrite IH ltnS; case: ifP => // _; congr (_ :: _).
rewrite -[iota 1 _]/(iota (1 + 0) _) iotaDl.
have -> (s : seq nat) : zip [seq (1 + i)%N | i <- s] sp = [seq ((1 + x.1)%N, x.2) | x <- zip s sp].
  by elim: s sp {IH} => [|i s IHs] [|y sp] //=; rewrite IHs.
rewrite -map_comp; exact: eq_map.
Qed.

(** State after processing a prefix: every vector has a close representative, the k-th
    space holds the vectors whose first close representative is the k-th, in order, and the
    representatives are among the eigenvalues. *)
Definition grouped (xs : seq (C * 'cV[C]_N)) sp : Prop :=
  [/\ forall x, x \in xs -> has (close x.1) (map fst sp),
      forall k, (k < size sp)%N -> (nth (0, [::]) sp k).2 = [seq x.2 | x <- xs & find (close x.1) (map fst sp) == k] &
      {subset map fst sp <= map fst xs}].

Lemma grouped_add xs sp x : grouped xs sp -> grouped (rcons xs x) (add_eig rtol x.1 x.2 sp).
Proof.
case=> h1 h2 h3; rewrite add_eigE /=; set k := find _ _.
have kE : (k < size sp)%N = has (close x.1) (map fst sp) by rewrite has_find size_map.
case: ifP => kl.
  set sp' := [seq _ | _ <- zip _ _].
  have szz : size (zip (iota 0 (size sp)) sp) = size sp by rewrite size_zip size_iota minnn.
  have nthE i : (i < size sp)%N -> nth (0, [::]) sp' i =
      if i == k then ((nth (0, [::]) sp i).1, rcons (nth (0, [::]) sp i).2 x.2) else nth (0, [::]) sp i.
    by move=> il; rewrite /sp' (nth_map (0%N, (0, [::]))) ?szz // nth_zip ?size_iota //= nth_iota // add0n.
  have sz : size sp' = size sp by rewrite size_map szz.
  have fE : map fst sp' = map fst sp.
    apply: (@eq_from_nth _ 0); first by rewrite !size_map szz.
    move=> i; rewrite size_map sz => il.
    rewrite !(nth_map (0, [::])) ?sz // nthE //; by case: eqP.
  split=> [y|i|]; rewrite fE ?sz.
  - rewrite mem_rcons inE => /orP [/eqP ->|/h1 //]; by rewrite -kE.
  - move=> il; rewrite nthE // filter_rcons -/k eq_sym; case: eqP => [ki|_] /=; last exact: h2.
    by rewrite map_rcons h2.
  - by move=> y /h3; rewrite map_rcons mem_rcons inE => ->; rewrite orbT.
have nh : ~~ has (close x.1) (map fst sp) by rewrite -kE kl.
have fl y : y \in xs -> find (close y.1) (map fst (rcons sp (x.1, [:: x.2]))) = find (close y.1) (map fst sp).
  by move=> /h1 hy; rewrite map_rcons -cats1 find_cat hy.
have fx : find (close x.1) (map fst (rcons sp (x.1, [:: x.2]))) = size sp.
  by rewrite map_rcons -cats1 find_cat (negbTE nh) /= close_refl addn0 size_map.
split=> [y|i|y].
- rewrite mem_rcons inE => /orP [/eqP ->|yx].
    by rewrite map_rcons has_rcons close_refl.
  by rewrite map_rcons has_rcons h1 ?orbT.
- have fil j : [seq z.2 | z <- xs & find (close z.1) (map fst (rcons sp (x.1, [:: x.2]))) == j] =
               [seq z.2 | z <- xs & find (close z.1) (map fst sp) == j].
    by congr (map _ _); apply: eq_in_filter => z zx; rewrite fl.
  rewrite size_rcons ltnS leq_eqVlt filter_rcons fx => /orP [/eqP ->|il].
    rewrite eqxx map_rcons fil nth_rcons ltnn eqxx /=.
    rewrite (_ : [seq z <- xs | _] = [::]) //; apply/eqP; rewrite -[_ == _]negbK -has_filter -all_predC.
    apply/allP => z zx /=; rewrite neq_ltn; apply/orP; left.
    by rewrite -(size_map fst) -has_find h1.
  by rewrite eq_sym (ltn_eqF il) nth_rcons il fil h2.
- rewrite !map_rcons !mem_rcons !inE => /orP [->//|/h3 ->]; by rewrite orbT.
Qed.

Lemma grouped_fold xs : grouped xs (foldl (fun sp x => add_eig rtol x.1 x.2 sp) [::] xs).
Proof.
elim/last_ind: xs => [|xs x IH]; first by split.
by rewrite foldl_rcons; apply: grouped_add.
Qed.

(** The spaces are the fibres of a map g on the columns that only depends on the
    eigenvalue; all eigenvalues of a space are close to one eigenvalue. *)
Lemma eigenspaces_grouped (evs : seq C) (V : 'M[C]_N) : size evs = N ->
  let sps := eigenspaces rtol evs V in
  exists g : 'I_N -> nat, [/\ forall j, (g j < size sps)%N,
    forall i j : 'I_N, nth 0 evs i = nth 0 evs j -> g i = g j,
    forall k, (k < size sps)%N -> (nth (0, [::]) sps k).2 = [seq col j V | j <- enum 'I_N & g j == k] &
    forall k, (k < size sps)%N -> exists i : 'I_N, forall j : 'I_N, g j = k -> close (nth 0 evs j) (nth 0 evs i)].
Proof.
move=> sz sps; pose xs := zip evs [seq col j V | j <- enum 'I_N].
have [h1 h2 h3] : grouped xs sps by exact: grouped_fold.
have xsE : xs = [seq (nth 0 evs (val j), col j V) | j <- enum 'I_N].
  rewrite /xs; have : map val (enum 'I_N) = iota 0 N by exact: val_enum_ord.
  move: (enum 'I_N) => E EE; have szE : size E = N by rewrite -(size_map val) EE size_iota.
  apply: (@eq_from_nth _ (0, 0)); first by rewrite size_zip !size_map sz szE minnn.
  move=> i; rewrite size_zip size_map sz szE minnn => il.
  rewrite nth_zip ?size_map ?szE // !(nth_map (Ordinal il)) ?szE //; congr (nth _ _ _, _).
  by rewrite -(nth_map (Ordinal il) 0%N val) ?szE // EE nth_iota.
pose g (j : 'I_N) := find (close (nth 0 evs j)) (map fst sps).
have gl j : (g j < size sps)%N.
  rewrite -(size_map fst) -has_find; apply: (h1 (nth 0 evs j, col j V)).
  by rewrite xsE map_f // mem_enum.
exists g; split=> //.
- by move=> i j E; rewrite /g E.
- move=> k kl; rewrite (h2 _ kl) xsE filter_map -map_comp; congr (map _ _); exact: eq_filter.
- move=> k kl; have := mem_nth 0 (s := map fst sps) (n := k); rewrite size_map => /(_ kl) /h3.
  rewrite xsE -map_comp => /mapP [i _ ki]; exists i => j gj /=.
  have := nth_find 0 (a := close (nth 0 evs j)) (s := map fst sps).
  by rewrite -/(g j) gj has_find size_map -/(g j) gl ki => ->.
Qed.
End Grouping.

(** * Invariant subspaces from an eigendecomposition *)
Section Invariant.
Variables (C : numClosedFieldType) (N : nat).

Lemma eigen_commute (M V X : 'M[C]_N) (evs : seq C) (f : pred 'I_N) :
  adj V *m V = 1%:M -> M *m V = V *m diag_mx (\row_j nth 0 evs j) ->
  (forall i j : 'I_N, nth 0 evs i = nth 0 evs j -> f i = f j) ->
  X *m M = M *m X ->
  let P := V *m diag_mx (\row_j (f j)%:R) *m adj V in X *m P = P *m X.
Proof.
move=> VV MV fE XM P; have VV' := mulmx1C VV.
pose Y := adj V *m X *m V; pose L : 'M[C]_N := diag_mx (\row_j nth 0 evs j); pose E : 'M[C]_N := diag_mx (\row_j (f j)%:R).
have L_ : L = adj V *m M *m V by rewrite -mulmxA MV mulmxA VV mul1mx.
have YL : Y *m L = L *m Y.
  rewrite L_ /Y !mulmxA; rewrite -[adj V *m X *m V *m adj V]mulmxA VV' mulmx1.
  by rewrite -[adj V *m M *m V *m adj V]mulmxA VV' mulmx1 -!mulmxA [X *m _]mulmxA XM -!mulmxA.
have XE : X = V *m Y *m adj V by rewrite /Y !mulmxA VV' mul1mx -mulmxA VV' mulmx1.
clearbody Y.
have YE : Y *m E = E *m Y.
  apply/matrixP => i j; have := congr1 (fun Z : 'M[C]_N => Z i j) YL.
  rewrite /L /E !mul_mx_diag !mul_diag_mx !mxE => h.
  case: (Y i j =P 0) => [->|/eqP y0]; first by rewrite mulr0 mul0r.
  have -> : f i = f j by apply: fE; apply: (mulfI y0); rewrite h mulrC.
  by rewrite mulrC.
rewrite XE /P -/E !mulmxA -[V *m Y *m adj V *m V]mulmxA VV mulmx1.
by rewrite -[V *m E *m adj V *m V]mulmxA VV mulmx1 -[V *m Y *m E]mulmxA YE mulmxA.
Qed.

Lemma columns_cols (V : 'M[C]_N) (s : seq 'I_N) (i : 'I_N) (j : 'I_(size [seq col j V | j <- s])) k0 :
  columns [seq col j V | j <- s] i j = V i (nth k0 s j).
Proof.
rewrite mxE (nth_map k0) ?mxE //; by rewrite -(size_map (fun j => col j V)).
Qed.

Lemma columns_orth (V : 'M[C]_N) (s : seq 'I_N) : adj V *m V = 1%:M -> uniq s ->
  adj (columns [seq col j V | j <- s]) *m columns [seq col j V | j <- s] = 1%:M.
Proof.
move=> VV us; apply/matrixP => a b; rewrite !mxE.
have k0 : 'I_N by case: s us a b => [_ []|k s _ _ _].
have sa (x : 'I_(size [seq col j V | j <- s])) : (x < size s)%N by rewrite -(size_map (fun j => col j V)).
transitivity ((adj V *m V) (nth k0 s a) (nth k0 s b)).
  by rewrite mxE; apply: eq_bigr => i _; rewrite !adjE !(columns_cols _ _ k0).
by rewrite VV mxE nth_uniq.
Qed.

Lemma columns_proj (V : 'M[C]_N) (f : pred 'I_N) :
  let A := columns [seq col j V | j <- enum 'I_N & f j] in
  A *m adj A = V *m diag_mx (\row_j (f j)%:R) *m adj V.
Proof.
move=> A; apply/matrixP => a b; rewrite !mxE.
under [RHS]eq_bigr => j _ do rewrite mul_mx_diag !mxE.
pose F (j : 'I_N) : C := V a j * (V b j)^*.
transitivity (\sum_(j <- [seq j <- enum 'I_N | f j]) F j); last first.
  rewrite big_filter big_enum_cond /= big_mkcond; apply: eq_bigr => j _.
  by rewrite /F; case: (f j); rewrite ?mulr1 ?mulr0 ?mul0r.
rewrite /A; move: [seq j <- _ | _] => s.
case: s => [|k0 s']; first by rewrite big_nil big1 // => -[].
move: (k0 :: s') => s.
rewrite (big_nth k0) big_mkord -(size_map (fun j => col j V)); apply: eq_bigr => j _.
by rewrite adjE !(columns_cols _ _ k0).
Qed.

Variable qr_q : forall n k, 'M[C]_(n, k) -> 'M[C]_(n, k).
Hypothesis qrP : forall n k (A : 'M[C]_(n, k)), adj A *m A = 1%:M ->
  adj (qr_q A) *m qr_q A = 1%:M /\ exists R, A = qr_q A *m R.

Lemma qr_proj k (A : 'M[C]_(N, k)) : adj A *m A = 1%:M ->
  adj (qr_q A) *m qr_q A = 1%:M /\ qr_q A *m adj (qr_q A) = A *m adj A.
Proof.
move=> AA; have [QQ [R AR]] := qrP AA; split=> //; set Q := qr_q A in QQ AR *.
have RR : adj R *m R = 1%:M.
  by rewrite -AA AR adjM !mulmxA -[adj R *m adj Q *m Q]mulmxA QQ mulmx1.
have RR' := mulmx1C RR.
by rewrite AR adjM !mulmxA -[Q *m R *m adj R]mulmxA RR' mulmx1.
Qed.
End Invariant.

(** * The candidates *)
Section Candidates.
Variables (C : numClosedFieldType) (n : nat) (mul : nat -> nat -> nat) (e : nat).
Hypothesis G : group_law n mul e.
Variable mu : nat -> nat -> C.
Hypothesis imufs : ifactor_system n mul e mu.
Variables (around : C -> C) (rtol : C).
Hypothesis aroundP : forall k : nat, around k%:R = k%:R.
Hypothesis rtol0 : 0 <= rtol.
Variable eigh : forall n, 'M[C]_n -> seq C * 'M[C]_n.
Hypothesis eighP : forall n (M : 'M[C]_n), adj M = M ->
  [/\ size (eigh M).1 = n, adj (eigh M).2 *m (eigh M).2 = 1%:M &
      M *m (eigh M).2 = (eigh M).2 *m diag_mx (\row_j nth 0 (eigh M).1 j)].
Variable qr_q : forall n k, 'M[C]_(n, k) -> 'M[C]_(n, k).
Hypothesis qrP : forall n k (A : 'M[C]_(n, k)), adj A *m A = 1%:M ->
  adj (qr_q A) *m qr_q A = 1%:M /\ exists R, A = qr_q A *m R.
Variable key_le : C -> C -> bool.

Variables (N : nat) (ms : seq 'M[C]_N).
Hypothesis sz : size ms = n.
Let L (i : nat) : 'M[C]_N := nth 0 ms i.
Hypotheses (pL : iprojrep n mul e mu L) (uL : iunitary n L).

Let T := [set: igT G]%G.
Let mufs := ifs_fs G imufs.
Let cT : #|T| = n. Proof. by rewrite cardsT ival_card. Qed.
Let n0 : (n%:R : C) != 0. Proof. rewrite -cT; exact: cardH_neq0. Qed.

(** An isometry onto a subspace invariant under all matrices of the representation. *)
Definition inv_isometry k (Q : 'M[C]_(N, k)) : Prop :=
  adj Q *m Q = 1%:M /\ forall i, (i < n)%N -> L i *m (Q *m adj Q) = (Q *m adj Q) *m L i.

Lemma inv_isometry_space (M : 'M[C]_N) : adj M = M -> (forall i, (i < n)%N -> L i *m M = M *m L i) ->
  forall sp, sp \in eigenspaces rtol (eigh M).1 (eigh M).2 -> inv_isometry (qr_q (columns sp.2)).
Proof.
move=> hM cM sp spin; have [szE VV MV] := eighP hM.
have [g [_ fE gE _]] := eigenspaces_grouped rtol0 (eigh M).2 szE.
have [k kl <-] := nthP (0, [::]) spin; rewrite gE //.
set A := columns _; have AA : adj A *m A = 1%:M by apply: columns_orth => //; rewrite filter_uniq // enum_uniq.
have [QQ QP] := qr_proj qrP AA; split=> // i il; rewrite QP /A columns_proj.
apply: (eigen_commute VV MV _ (cM i il)) => a b /= ab; by rewrite (fE a b).
Qed.

Section Sub.
Variables (k : nat) (Q : 'M[C]_(N, k)).
Hypothesis iQ : inv_isometry Q.
Let D (i : nat) : 'M[C]_k := adj Q *m L i *m Q.
Lemma sub_LQ i : (i < n)%N -> L i *m Q = Q *m D i.
Proof.
case: iQ => QQ h il; have -> : Q = Q *m adj Q *m Q by rewrite -mulmxA QQ mulmx1.
by rewrite mulmxA h // /D !mulmxA -[Q *m adj Q *m Q]mulmxA QQ mulmx1.
Qed.
Lemma sub_QL i : (i < n)%N -> D i *m adj Q = adj Q *m L i.
Proof.
case: iQ => QQ h il; rewrite /D -!mulmxA h // !mulmxA QQ mul1mx //.
Qed.
Lemma sub_rep : iprojrep n mul e mu D.
Proof.
case: iQ => QQ h; case: pL => p1 p2; split=> [|i j hi hj]; first by rewrite /D p1 mulmx1.
have -> : D i *m D j = D i *m adj Q *m L j *m Q by rewrite /D !mulmxA.
by rewrite sub_QL // -[adj Q *m L i *m L j]mulmxA p2 // -scalemxAr -scalemxAl.
Qed.
Lemma sub_unitary : iunitary n D.
Proof.
case: iQ => QQ h i il; have -> : adj (D i) = adj Q *m adj (L i) *m Q by rewrite /D !adjM adjK mulmxA.
have -> : D i *m (adj Q *m adj (L i) *m Q) = D i *m adj Q *m adj (L i) *m Q by rewrite !mulmxA.
by rewrite sub_QL // -[adj Q *m L i *m adj (L i)]mulmxA uL // mulmx1.
Qed.
End Sub.

(** What the loop keeps about the representations found so far. *)
Definition found_ok (A : arr C) : Prop :=
  [/\ aorder A = n, iprojrep n mul e mu (aget A), iunitary n (aget A), icip n (aget A) (aget A) = n%:R &
      exists Q : 'M[C]_(N, adim A), inv_isometry Q /\ forall i, (i < n)%N -> aget A i = adj Q *m L i *m Q].
Local Notation arr0 := (Arr (adim := 0) [::]).
Definition found_all (As : seq (arr C)) : Prop :=
  (forall k, (k < size As)%N -> found_ok (nth arr0 As k)) /\
  forall k l, (k < size As)%N -> (l < size As)%N -> k <> l ->
    icip n (aget (nth arr0 As k)) (aget (nth arr0 As l)) = 0.

Lemma char_sumE d1 d2 (ms1 : seq 'M[C]_d1) (ms2 : seq 'M[C]_d2) : size ms1 = n -> size ms2 = n ->
  char_sum [seq \tr M | M <- ms1] [seq \tr M | M <- ms2] = icip n (nth 0 ms1) (nth 0 ms2).
Proof.
move=> s1 s2; rewrite /char_sum (big_nth (0, 0)) size_zip !size_map s1 s2 minnn big_mkord.
by apply: eq_bigr => i _; rewrite nth_zip ?size_map ?s1 ?s2 //= !(nth_map 0) ?s1 ?s2.
Qed.

Lemma icip_nat d1 d2 (A : nat -> 'M[C]_d1) (B : nat -> 'M[C]_d2) :
  iprojrep n mul e mu A -> iprojrep n mul e mu B -> iunitary n B -> exists k : nat, icip n A B = (k * n)%:R.
Proof.
move=> pA pB uB; have [k] := cip_nat mufs (H := T) (proj1 (iprojrepE G _ _) pA) (proj1 (iprojrepE G _ _) pB) (proj1 (iunitaryE G _) uB).
by move=> h; exists k; rewrite (icipE G) h cT natrM.
Qed.
Lemma icip_dich d1 d2 (A : nat -> 'M[C]_d1) (B : nat -> 'M[C]_d2) :
  iprojrep n mul e mu A -> iunitary n A -> icip n A A = n%:R ->
  iprojrep n mul e mu B -> iunitary n B -> icip n B B = n%:R ->
  icip n A B = 0 /\ ~ iequivalent n A B \/ icip n A B = n%:R /\ iequivalent n A B.
Proof.
have cTr : #|T|%:R = n%:R :> C by rewrite cT.
move=> pA uA nA pB uB nB; rewrite !(icipE G) (iequivalentE G) -cTr in nA nB *.
by apply: (cip_dich mufs); [exact/(iprojrepE G)|exact/(iunitaryE G)|exact/nA|exact/(iprojrepE G)|exact/(iunitaryE G)|exact/nB].
Qed.
Lemma icip_sym d1 d2 (A : nat -> 'M[C]_d1) (B : nat -> 'M[C]_d2) : icip n A B = (icip n B A)^*.
Proof.
by rewrite /icip rmorph_sum; apply: eq_bigr => i _; rewrite rmorphM conjCK mulrC.
Qed.

Local Notation reg := (Arr ms).
Definition st_ok (st : seq (arr C) * seq (seq C)) : Prop :=
  st.2 = [seq [seq \tr M | M <- amats A] | A <- st.1] /\ found_all st.1.

Lemma try_ok st sp : inv_isometry (qr_q (columns sp.2)) -> st_ok st ->
  st_ok (@try_space C around qr_q rtol reg st sp).
Proof.
set Q := qr_q _ => iQ [s2 [f1 f2]]; rewrite /try_space /= -/Q.
set chi := [seq _ | _ <- ms]; pose B := [seq adj Q *m M *m Q | M <- ms].
have szB : size B = n by rewrite size_map.
have chiE : chi = [seq \tr M | M <- B] by rewrite -map_comp.
have BE i : (i < n)%N -> nth 0 B i = adj Q *m L i *m Q by move=> il; rewrite (nth_map 0) ?sz.
have [QQ hQ] := iQ; have en := ig_e G.
have pB : iprojrep n mul e mu (nth 0 B).
  have [p1 p2] := sub_rep iQ; split=> [|i j hi hj]; first by rewrite BE.
  rewrite !BE ?p2 //; exact: (ig_closed G (Ordinal hi) (Ordinal hj)).
have uB : iunitary n (nth 0 B) by move=> i il; rewrite BE // (sub_unitary iQ).
case: ifP => [//|/negbFE]; rewrite /is_equivalent_irrep chiE char_sumE // size_map szB => h.
have nB : icip n (nth 0 B) (nth 0 B) = n%:R.
  have [k kE] := icip_nat pB pB uB; move: h; rewrite kE aroundP eqr_nat => /eqP -> //.
case: ifP => [//|/negbT]; rewrite -all_predC => /allP hu; split=> /=.
  by rewrite map_rcons s2.
have fB : found_ok (Arr B) by split=> //; exists Q.
have orth k : (k < size st.1)%N -> icip n (nth 0 B) (aget (nth arr0 st.1 k)) = 0.
  move=> ks; have [sA pA uA nA _] := f1 k ks; have := hu (nth [::] st.2 k).
  rewrite s2 mem_nth ?size_map // => /(_ isT) /=; rewrite (nth_map arr0) // char_sumE //.
  case: (icip_dich pB uB nB pA uA nA) => -[E _]; first by rewrite -/(aget _) E.
  by rewrite -/(aget _) E aroundP /aorder sz close_refl.
split=> [k|k l]; rewrite !size_rcons ?ltnS.
  rewrite leq_eqVlt nth_rcons => /orP [/eqP ->|kl]; first by rewrite ltnn eqxx.
  by rewrite kl; exact: f1.
rewrite !nth_rcons leq_eqVlt => /orP [/eqP ->|kl]; rewrite leq_eqVlt => /orP [/eqP ->|ll] //.
- by move=> _; rewrite ltnn eqxx ll orth.
- by move=> _; rewrite ltnn eqxx kl icip_sym orth // conjC0.
- by rewrite kl ll; exact: f2.
Qed.

Lemma fold_ok sps st : (forall sp, sp \in sps -> inv_isometry (qr_q (columns sp.2))) -> st_ok st ->
  st_ok (foldl (@try_space C around qr_q rtol reg) st sps).
Proof.
elim: sps st => [|sp sps IH] st //= h ok; apply: IH => [sp' h'|]; first by apply: h; rewrite inE h' orbT.
by apply: try_ok => //; apply: h; rewrite inE eqxx.
Qed.

Lemma get_irreps_ok (M : 'M[C]_N) : adj M = M -> (forall i, (i < n)%N -> L i *m M = M *m L i) ->
  found_all (@get_irreps_from_matrix C around eigh qr_q key_le rtol reg M).
Proof.
move=> hM cM; rewrite /get_irreps_from_matrix /=.
set st := foldl _ _ _; have [_ [f1 f2]] : st_ok st.
  by apply: fold_ok; [exact: inv_isometry_space|split=> //; split].
set p := sort _ _; have pp : perm_eq p (iota 0 (size st.1)) by rewrite /p perm_sort.
have szp : size p = size st.1 by rewrite (perm_size pp) size_iota.
have pl k : (k < size p)%N -> (nth 0%N p k < size st.1)%N.
  by move=> kl; have := mem_nth 0%N kl; rewrite (perm_mem pp) mem_iota.
have up : uniq p by rewrite (perm_uniq pp) iota_uniq.
split=> [k|k l]; rewrite !size_map => kl; first by rewrite (nth_map 0%N) //; apply: f1; exact: pl.
move=> ll nkl; rewrite !(nth_map 0%N) //; apply: f2; try exact: pl.
by move=> /eqP; rewrite nth_uniq // => /eqP.
Qed.

(** The list is complete once the squared dimensions add up. *)
Lemma found_complete As : found_all As -> (\sum_(A <- As) adim A ^ 2)%N = n ->
  complete_irreps n mul e mu (size As) (fun k => aget (nth arr0 As k)).
Proof.
case=> f1 f2 sq; apply: (complete_from_orth G imufs).
- by move=> k /f1 [].
- by move=> k /f1 [].
- by move=> k l kA lA; case: eqP => [->|kl]; [have [] := f1 l lA|exact: f2].
move=> m B m0 pB.
have := @squares_cover C (igT G) (imu mu) mufs [finType of 'I_(size As)] (fun k => adim (nth arr0 As k))
  (fun k g => aget (nth arr0 As k) (ival g)) _ _ _ _ _ m (fun g => B (ival g)) m0 (proj1 (iprojrepE G _ _) pB).
case.
- by move=> k; apply/(iprojrepE G); have [] := f1 k (ltn_ord k).
- by move=> k; apply/(iunitaryE G); have [] := f1 k (ltn_ord k).
- by move=> k; rewrite -(icipE G) cT; have [] := f1 k (ltn_ord k).
- by move=> k l kl; rewrite -(icipE G) f2 //; move=> E; case/eqP: kl; exact: val_inj.
- rewrite ival_card -[RHS]sq (big_nth arr0) big_mkord //.
by move=> k nz; exists k; split=> //; rewrite (icipE G).
Qed.

(** * Success of a separating trial *)
Hypothesis rtol1 : (10 ^ 8)%:R^-1 + rtol * n%:R < n%:R.

Lemma not_close0 : ~~ np_isclose rtol 0 n%:R.
Proof. by apply/negP; rewrite /np_isclose sub0r normrN normr_nat => /(lt_le_trans rtol1); rewrite ltxx. Qed.

(** A processed irreducible space has an equivalent member in the result. *)
Definition covered (As : seq (arr C)) k (Q : 'M[C]_(N, k)) : Prop :=
  exists i, (i < size As)%N /\ iequivalent n (aget (nth arr0 As i)) (fun j => adj Q *m L j *m Q).

Lemma try_covers st sp : let Q := qr_q (columns sp.2) in inv_isometry Q -> st_ok st ->
  icip n (fun j => adj Q *m L j *m Q) (fun j => adj Q *m L j *m Q) = n%:R ->
  covered (@try_space C around qr_q rtol reg st sp).1 Q.
Proof.
move=> Q iQ [s2 [f1 f2]] nQ; rewrite /try_space /= -/Q.
set chi := [seq _ | _ <- ms]; pose B := [seq adj Q *m M *m Q | M <- ms].
have szB : size B = n by rewrite size_map.
have chiE : chi = [seq \tr M | M <- B] by rewrite -map_comp.
have BE i : (i < n)%N -> nth 0 B i = adj Q *m L i *m Q by move=> il; rewrite (nth_map 0) ?sz.
have pB := sub_rep iQ; have uB := sub_unitary iQ.
have icB d (A : nat -> 'M[C]_d) : icip n (nth 0 B) A = icip n (fun j => adj Q *m L j *m Q) A.
  by apply: eq_bigr => i _; rewrite BE.
have nB : icip n (nth 0 B) (nth 0 B) = n%:R.
  by rewrite icB -nQ; apply: eq_bigr => i _; rewrite BE.
rewrite /is_equivalent_irrep {1 2}chiE char_sumE // size_map sz nB aroundP eqxx /=.
case: ifP => [/hasP [c cin]|_]; last first.
  exists (size st.1); rewrite size_rcons nth_rcons ltnn eqxx; split=> //.
  by exists 1%:M, 1%:M; split=> [||i il]; rewrite ?mulmx1 ?mul1mx // /aget BE.
have [k ks <-] := nthP [::] cin; rewrite s2 size_map in ks; rewrite s2 (nth_map arr0) //.
have [sA pA uA nA _] := f1 k ks; set A := nth arr0 st.1 k in sA pA uA nA *.
rewrite chiE char_sumE // -/(aget A) icB.
case: (icip_dich pB uB nQ pA uA nA) => -[-> eq].
  by rewrite (aroundP 0) /aorder sz (negbTE not_close0).
move=> _; exists k; split=> //; apply/(iequivalentE G); apply: equivalent_sym.
exact: (proj1 (iequivalentE G _ _) eq).
Qed.

Lemma try_grows st sp k (Q : 'M[C]_(N, k)) :
  covered st.1 Q -> covered (@try_space C around qr_q rtol reg st sp).1 Q.
Proof.
move=> [i [il eq]]; rewrite /try_space; case: ifP => _; first by exists i.
case: ifP => _; first by exists i.
by exists i; rewrite /= size_rcons ltnS (ltnW il) nth_rcons il.
Qed.
Lemma fold_grows sps st k (Q : 'M[C]_(N, k)) :
  covered st.1 Q -> covered (foldl (@try_space C around qr_q rtol reg) st sps).1 Q.
Proof. by elim: sps st => [|sp sps IH] st //= h; apply: IH; apply: try_grows. Qed.

Lemma fold_covers sps st sp : (forall sp, sp \in sps -> inv_isometry (qr_q (columns sp.2))) -> st_ok st ->
  sp \in sps -> let Q := qr_q (columns sp.2) in
  icip n (fun j => adj Q *m L j *m Q) (fun j => adj Q *m L j *m Q) = n%:R ->
  covered (foldl (@try_space C around qr_q rtol reg) st sps).1 Q.
Proof.
elim: sps st => [|sp' sps IH] st //= h ok; rewrite inE => /orP [/eqP ->|spin] nQ.
  by apply: fold_grows; apply: try_covers => //; apply: h; rewrite inE eqxx.
apply: IH => // [sp2 h2|]; first by apply: h; rewrite inE h2 orbT.
by apply: try_ok => //; apply: h; rewrite inE eqxx.
Qed.

(** A matrix M separates the representation: close eigenvalues are equal and each
    eigenspace of M has no proper non-zero subspace invariant under all L i. *)
Definition separating (M : 'M[C]_N) : Prop :=
  (forall (a b : C) (u v : 'cV[C]_N), u != 0 -> v != 0 -> M *m u = a *: u -> M *m v = b *: v ->
     np_isclose rtol a b -> a = b) /\
  forall (a : C) m (W : 'M[C]_(N, m)), M *m W = a *: W ->
    (forall i, (i < n)%N -> exists Y, L i *m W = W *m Y) ->
    W = 0 \/ forall p (X : 'M[C]_(N, p)), M *m X = a *: X -> exists Z, X = W *m Z.

Section Separated.
Variable M : 'M[C]_N.
Hypotheses (hM : adj M = M) (cM : forall i, (i < n)%N -> L i *m M = M *m L i) (sM : separating M).
Let evs := (eigh M).1.
Let V := (eigh M).2.

Lemma col_eig (j : 'I_N) : M *m col j V = nth 0 evs j *: col j V /\ col j V != 0.
Proof.
have [_ VV MV] := eighP hM; split.
  by rewrite [in LHS]colE mulmxA MV -colE; apply/matrixP => a b; rewrite mxE mul_mx_diag !mxE mulrC.
apply/eqP => V0; have := congr1 (fun X : 'M[C]_N => X j j) VV; rewrite !mxE eqxx big1 => [/eqP|k _].
  by rewrite eq_sym oner_eq0.
have := congr1 (fun X : 'cV[C]_N => X k 0) V0; rewrite !mxE => E.
by rewrite [V k j]E mulr0.
Qed.

Lemma space_eig sp : sp \in eigenspaces rtol evs V -> let Q := qr_q (columns sp.2) in
  exists a, M *m Q = a *: Q.
Proof.
move=> spin; have [szE VV MV] := eighP hM.
have [g [_ fE gE cE]] := eigenspaces_grouped rtol0 (eigh M).2 szE.
have [k kl <-] := nthP (0, [::]) spin; have [i hi] := cE k kl.
exists (nth 0 evs i); rewrite gE //.
set s := [seq j <- _ | _]; set A := columns _; set Q := qr_q A.
have AA : adj A *m A = 1%:M by apply: columns_orth => //; rewrite filter_uniq // enum_uniq.
have [QQ [R AR]] := qrP AA; rewrite -/Q in QQ AR.
have MA : M *m A = nth 0 evs i *: A.
  apply/matrixP => a b; rewrite !mxE.
  pose j := nth i s b; have bs : (b < size s)%N by rewrite -(size_map (fun j => col j (eigh M).2)).
  have := mem_nth i bs; rewrite -/j mem_filter => /andP [/eqP gj _].
  have ej : nth 0 evs j = nth 0 evs i.
    have [E1 N1] := col_eig j; have [E2 N2] := col_eig i.
    by apply: (sM.1 _ _ _ _ N1 N2 E1 E2); exact: hi.
  have [E1 _] := col_eig j; have := congr1 (fun X : 'cV[C]_N => X a 0) E1; rewrite !mxE ej => E.
  rewrite (nth_map i) // -/j mxE -E; apply: eq_bigr => c _.
  by rewrite (columns_cols _ _ i) -/j mxE.
have RR : R *m adj R = 1%:M.
  by apply: mulmx1C; rewrite -AA AR adjM !mulmxA -[adj R *m adj Q *m Q]mulmxA QQ mulmx1.
have -> : Q = A *m adj R by rewrite AR -mulmxA RR mulmx1.
by rewrite mulmxA MA -scalemxAl.
Qed.

Lemma space_irr sp : sp \in eigenspaces rtol evs V -> let Q := qr_q (columns sp.2) in
  (0 < size sp.2)%N -> icip n (fun j => adj Q *m L j *m Q) (fun j => adj Q *m L j *m Q) = n%:R.
Proof.
move=> spin Q k0; have iQ := inv_isometry_space hM cM spin; rewrite -/Q in iQ.
have [a MQ] := space_eig spin; rewrite -/Q in MQ.
have <- : #|T|%:R = n%:R :> C by rewrite cT.
rewrite (icipE G); apply: (irreducible_norm1 mufs).
- exact: (proj1 (iprojrepE G _ _) (sub_rep iQ)).
- exact: (proj1 (iunitaryE G _) (sub_unitary iQ)).
apply: (proj1 (iirreducibleE G (fun j => adj Q *m L j *m Q))); split=> // m W iW; have QQ := iQ.1.
have := sM.2 a m (Q *m W); rewrite mulmxA MQ -scalemxAl => /(_ erefl) [].
- move=> i il; have [Y DY] := iW i il; exists Y.
  by rewrite mulmxA (sub_LQ iQ) // -mulmxA DY mulmxA.
- move=> QW; left; by rewrite -[W]mul1mx -QQ -mulmxA QW mulmx0.
- move=> h; right; have [Z QZ] := h _ Q MQ; exists Z.
  by rewrite -QQ {2}QZ !mulmxA QQ mul1mx.
Qed.

Lemma space_proj (sp : C * seq 'cV[C]_N) (f : pred 'I_N) : sp.2 = [seq col j V | j <- enum 'I_N & f j] ->
  let Q := qr_q (columns sp.2) in Q *m adj Q = V *m diag_mx (\row_j (f j)%:R) *m adj V.
Proof.
have [_ VV _] := eighP hM.
case: sp => a vs /= ->; rewrite -columns_proj; apply: (proj2 (qr_proj qrP _)).
by apply: columns_orth => //; rewrite filter_uniq // enum_uniq.
Qed.

Lemma trace_split i : \tr (L i) = \sum_(sp <- eigenspaces rtol evs V)
  \tr (adj (qr_q (columns sp.2)) *m L i *m qr_q (columns sp.2)).
Proof.
have [szE VV MV] := eighP hM; set sps := eigenspaces _ _ _.
have [g [gl _ gE _]] := eigenspaces_grouped rtol0 (eigh M).2 szE.
rewrite (big_nth (0, [::])) big_mkord.
have E : 1%:M = \sum_(k < size sps) V *m diag_mx (\row_j (g j == k)%:R) *m adj V :> 'M[C]_N.
  rewrite -mulmx_suml -mulmx_sumr.
  rewrite (_ : \sum_(k < size sps) diag_mx (\row_j (g j == k)%:R) = 1%:M) ?mulmx1 ?(mulmx1C VV) //.
  apply/matrixP => a b; rewrite summxE mxE; case: eqP => [->|ab]; last first.
    by rewrite big1 // => k _; rewrite !mxE (introF eqP ab) mulr0n.
  rewrite (bigD1 (Ordinal (gl b))) //= !mxE !eqxx big1 ?addr0 ?mulr1n // => k kk.
  rewrite !mxE eqxx mulr1n; case: eqP => // gk; case/eqP: kk; exact: val_inj.
rewrite -[in LHS](mulmx1 (L i)) E mulmx_sumr raddf_sum /=; apply: eq_bigr => k _.
by rewrite -(space_proj (gE k (ltn_ord k))) /= mulmxA mxtrace_mulC mulmxA.
Qed.

Lemma separated_covered sp : sp \in eigenspaces rtol evs V -> (0 < size sp.2)%N ->
  covered (@get_irreps_from_matrix C around eigh qr_q key_le rtol reg M) (qr_q (columns sp.2)).
Proof.
move=> spin k0; rewrite /get_irreps_from_matrix /= -/evs -/V; set st := foldl _ _ _.
have [i [il eq]] : covered st.1 (qr_q (columns sp.2)).
  apply: fold_covers => //; [exact: inv_isometry_space|exact: (space_irr spin k0)].
set p := sort _ _; have pp : perm_eq p (iota 0 (size st.1)) by rewrite /p perm_sort.
have ip : i \in p by rewrite (perm_mem pp) mem_iota.
exists (index i p); rewrite size_map index_mem ip; split=> //.
by rewrite (nth_map 0%N) ?index_mem // nth_index.
Qed.

(** The result of a separating trial on the regular representation is complete. *)
Lemma separated_complete : (forall i, (i < n)%N -> \tr (L i) = if i == e then n%:R else 0) ->
  (\sum_(A <- @get_irreps_from_matrix C around eigh qr_q key_le rtol reg M) adim A ^ 2)%N = n.
Proof.
move=> trL; set As := get_irreps_from_matrix _ _ _ _ _ _.
have [f1 f2] : found_all As by exact: get_irreps_ok.
have cov := separated_covered; rewrite -/As in cov.
have [_ _ _ _ _ _] : complete_irreps n mul e mu (size As) (fun k => aget (nth arr0 As k)).
  apply: (complete_from_orth G imufs).
  - by move=> k /f1 [].
  - by move=> k /f1 [].
  - by move=> k l kA lA; case: eqP => [->|kl]; [have [] := f1 l lA|exact: f2].
  move=> m B m0 pB.
  have [/existsP [k nz]|] := boolP [exists k : 'I_(size As), icip n (aget (nth arr0 As k)) B != 0].
    by exists k.
  rewrite negb_exists => /forallP z; exfalso.
  have : icip n L B = 0.
    rewrite /icip; under eq_bigr => i _ do rewrite trace_split rmorph_sum mulr_suml.
    rewrite exchange_big /= big_seq big1 // => sp spin.
    case: (posnP (size sp.2)) => [s0|/(cov _ spin) [k [kl eq]]].
      move: (qr_q (columns sp.2)); rewrite s0 => Q; rewrite big1 // => i _.
      by rewrite [adj Q *m L i *m Q]flatmx0 mxtrace0 conjC0 mul0r.
    have := z (Ordinal kl); rewrite negbK /= => /eqP zk; apply: etrans zk; apply: eq_bigr => i _.
    have [x <-] := ival_surj G (ltn_ord i).
    have eq' := proj1 (iequivalentE G _ _) eq.
    by rewrite (equivalent_char eq' (x := x)) ?inE.
  rewrite /icip (bigD1 (Ordinal (ig_e G))) //= big1 => [|i ie].
    rewrite addr0 trL ?(ig_e G) // ?eqxx conjC_nat pB.1 mxtrace1 => /eqP.
    by rewrite mulf_eq0 (negbTE n0) pnatr_eq0 => /eqP m00; rewrite m00 in m0.
  by rewrite trL // -[(i == e :> nat)]/(i == Ordinal (ig_e G)) (negbTE ie) conjC0 mul0r.
by rewrite (big_nth arr0) big_mkord.
Qed.
End Separated.

(** * Decomposition of a representation (irreps.py:305-349) *)
Section Decomposed.
Variable As : seq (arr C).
Hypothesis fA : found_all As.
Hypothesis dimA : (\sum_(A <- As) adim A)%N = N.
Local Notation A k := (aget (nth arr0 As k)).

Lemma icip_char d1 d2 d3 (B : nat -> 'M[C]_d1) (D1 : nat -> 'M[C]_d2) (D2 : nat -> 'M[C]_d3) :
  (forall i, (i < n)%N -> \tr (D1 i) = \tr (D2 i)) -> icip n B D1 = icip n B D2.
Proof. by move=> h; apply: eq_bigr => i _; rewrite h. Qed.

Lemma decomposed_char i : (i < n)%N -> \tr (L i) = \sum_(k < size As) \tr (A k i).
Proof.
move=> il; case: fA => f1 f2.
have hQ k : (k < size As)%N -> exists Q : 'M[C]_(N, adim (nth arr0 As k)), inv_isometry Q /\ forall i, (i < n)%N -> A k i = adj Q *m L i *m Q.
  by move=> /f1 [].
have [S [SS trS hS]] : exists S : 'M[C]_N, [/\ S *m S = S, \tr S = N%:R &
    \tr (L i *m S) = \sum_(k < size As) \tr (A k i)].
  have [Q QP] : exists Q : forall k : 'I_(size As), 'M[C]_(N, adim (nth arr0 As k)),
      forall k, inv_isometry (Q k) /\ forall i, (i < n)%N -> A k i = adj (Q k) *m L i *m Q k.
    have QQ (k : 'I_(size As)) : exists Q : 'M[C]_(N, adim (nth arr0 As k)),
        (adj Q *m Q == 1%:M) && [forall i : 'I_n, (L i *m (Q *m adj Q) == (Q *m adj Q) *m L i) &&
           (A k i == adj Q *m L i *m Q)].
      have [Q [[q1 q2] q3]] := hQ k (ltn_ord k); exists Q; rewrite q1 eqxx /=.
      by apply/forallP => j; rewrite q2 // q3 // !eqxx.
    exists (fun k => xchoose (QQ k)) => k; have /andP [/eqP h1 /forallP h2] := xchooseP (QQ k).
    split=> [|j jl]; last by have /andP [_ /eqP] := h2 (Ordinal jl).
    by split=> // j jl; have /andP [/eqP] := h2 (Ordinal jl).
  have orth k l : k != l -> adj (Q k) *m Q l = 0.
    move=> kl; case: (adj (Q k) *m Q l =P 0) => // /eqP T0; exfalso.
    have [i1 e1] := QP k; have [i2 e2] := QP l.
    have [_ pk uk nk _] := f1 k (ltn_ord k); have [_ pl ul nl _] := f1 l (ltn_ord l).
    have cTr : #|T|%:R = n%:R :> C by rewrite cT.
    have nk' : cip T (fun g => A k (ival g)) (fun g => A k (ival g)) = #|T|%:R by rewrite -(icipE G) nk cTr.
    have nl' : cip T (fun g => A l (ival g)) (fun g => A l (ival g)) = #|T|%:R by rewrite -(icipE G) nl cTr.
    have hT x : x \in T -> A k (ival x) *m (adj (Q k) *m Q l) = adj (Q k) *m Q l *m A l (ival x).
      move=> _; rewrite (e1 _ (ival_lt x)) mulmxA (sub_QL i1 (ival_lt x)).
      by rewrite -mulmxA (sub_LQ i2 (ival_lt x)) -(e2 _ (ival_lt x)) mulmxA.
    have eq := intertwiner_equivalent mufs (proj1 (iprojrepE G _ _) pk) (proj1 (iunitaryE G _) uk) nk'
       (proj1 (iprojrepE G _ _) pl) (proj1 (iunitaryE G _) ul) nl' hT T0.
    have := equivalent_cip nk' eq; rewrite -(icipE G) f2 ?ltn_ord // => [/eqP|E]; last by case/eqP: kl; exact: val_inj.
    by rewrite cTr eq_sym (negbTE n0).
  exists (\sum_k Q k *m adj (Q k)); split.
  - rewrite mulmx_suml; apply: eq_bigr => k _; rewrite mulmx_sumr (bigD1 k) //= big1 => [|l lk].
      by rewrite addr0 mulmxA -[Q k *m adj (Q k) *m Q k]mulmxA (QP k).1.1 mulmx1.
    by rewrite mulmxA -[Q k *m adj (Q k) *m Q l]mulmxA orth 1?eq_sym // mulmx0 mul0mx.
  - rewrite -[in RHS]dimA (big_nth arr0) big_mkord natr_sum raddf_sum; apply: eq_bigr => k _ /=.
    by rewrite mxtrace_mulC (QP k).1.1 mxtrace1.
  - rewrite mulmx_sumr raddf_sum; apply: eq_bigr => k _ /=.
    by rewrite (QP k).2 // mulmxA mxtrace_mulC mulmxA.
have S1 : S = 1%:M.
  pose R := 1%:M - S.
  have RR : R *m R = R by rewrite /R mulmxBl mul1mx mulmxBr mulmx1 SS subrr subr0.
  have := idem_trace RR; rewrite /R raddfB /= mxtrace1 trS subrr => /eqP.
  by rewrite eq_sym pnatr_eq0 mxrank_eq0 subr_eq0 => /eqP ->.
by rewrite -hS S1 mulmx1.
Qed.

Lemma decomposed_mult d (B : nat -> 'M[C]_d) : icip n B L = \sum_(k < size As) icip n B (A k).
Proof.
rewrite /icip exchange_big /=; apply: eq_bigr => i _; rewrite decomposed_char // mulr_sumr //.
Qed.

Lemma decomposed_one k : (k < size As)%N -> icip n (A k) L = n%:R.
Proof.
move=> kl; rewrite decomposed_mult (bigD1 (Ordinal kl)) //= big1 => [|l lk].
  by rewrite addr0; have [] := fA.1 k kl.
by apply: fA.2 => // E; case/eqP: lk; apply: val_inj.
Qed.

Lemma decomposed_all d (B : nat -> 'M[C]_d) : iprojrep n mul e mu B -> iirreducible n B -> icip n B L != 0 ->
  exists k, (k < size As)%N /\ iequivalent n (A k) B.
Proof.
move=> pB iB; rewrite decomposed_mult => h.
have [/existsP [k nz]|] := boolP [exists k : 'I_(size As), icip n B (A k) != 0]; last first.
  rewrite negb_exists => /forallP z; case/eqP: h; apply: big1 => k _; apply/eqP; have := z k; by rewrite negbK.
have [_ pk uk nk _] := fA.1 k (ltn_ord k).
exists k; split=> //; apply/(iequivalentE G).
have cTr : #|T|%:R = n%:R :> C by rewrite cT.
have nk' : cip T (fun g => A k (ival g)) (fun g => A k (ival g)) = #|T|%:R by rewrite -(icipE G) nk cTr.
apply: (cip_neq0_equivalent mufs (proj1 (iprojrepE G _ _) pk) (proj1 (iunitaryE G _) uk)).
- exact: (norm1_irreducible mufs (proj1 (iprojrepE G _ _) pk) (proj1 (iunitaryE G _) uk) nk').
- exact: (proj1 (iprojrepE G _ _) pB).
- exact: (proj1 (iirreducibleE G _) iB).
- by rewrite -(icipE G) icip_sym conjC_eq0.
Qed.
End Decomposed.

(** A separating trial on a multiplicity-free representation succeeds. *)
Lemma separated_decomposes M : adj M = M -> (forall i, (i < n)%N -> L i *m M = M *m L i) -> separating M ->
  (forall d (B : nat -> 'M[C]_d), iprojrep n mul e mu B -> iunitary n B -> iirreducible n B ->
     icip n B L = 0 \/ icip n B L = n%:R) ->
  (\sum_(A <- @get_irreps_from_matrix C around eigh qr_q key_le rtol reg M) adim A)%N = N.
Proof.
move=> hM cM sM free; have fA := get_irreps_ok hM cM; have cov := separated_covered hM cM sM.
set As := get_irreps_from_matrix _ _ _ _ _ _ in fA cov *; have [f1 f2] := fA.
have cTr : #|T|%:R = n%:R :> C by rewrite cT.
have one k : (k < size As)%N -> icip n (aget (nth arr0 As k)) L = n%:R.
  move=> kl; have [_ pk uk nk [Q [iQ QA]]] := f1 k kl.
  have nk' : cip T (fun g => aget (nth arr0 As k) (ival g)) (fun g => aget (nth arr0 As k) (ival g)) = #|T|%:R by rewrite -(icipE G) nk cTr.
  have irr := norm1_irreducible mufs (proj1 (iprojrepE G _ _) pk) (proj1 (iunitaryE G _) uk) nk'.
  have [|//] := free _ _ pk uk (proj2 (iirreducibleE G _) irr).
  have hY g : g \in T -> aget (nth arr0 As k) (ival g) *m adj Q = adj Q *m L (ival g).
    by move=> _; rewrite (QA _ (ival_lt g)) (sub_QL iQ (ival_lt g)).
  have Y0 : adj Q != 0.
    apply: contraTneq (norm1_dim nk') => Y0; have := congr1 mxtrace iQ.1.
    rewrite Y0 mul0mx mxtrace0 mxtrace1 => /eqP; rewrite eq_sym pnatr_eq0 => /eqP ->; by [].
  have [k' E] := cip_intertwiner mufs (proj1 (iprojrepE G _ _) pk) (proj1 (iprojrepE G _ _) pL) (proj1 (iunitaryE G _) uL) hY Y0.
  by rewrite (icipE G) E => /eqP; rewrite mulf_eq0 pnatr_eq0 /= cTr (negbTE n0).
have tr1 sp i : sp \in eigenspaces rtol (eigh M).1 (eigh M).2 -> (i < n)%N ->
    let Q := qr_q (columns sp.2) in
    \tr (adj Q *m L i *m Q) =
    \sum_(k < size As) icip n (aget (nth arr0 As k)) (fun j => adj Q *m L j *m Q) / n%:R * \tr (aget (nth arr0 As k) i).
  move=> spin il; case: (posnP (size sp.2)) => [s0|/(cov _ spin) [k0 [kl eq]]].
    move: (qr_q (columns sp.2)); rewrite s0 => Q /=; rewrite big1 => [|k _].
      by rewrite [adj Q *m L i *m Q]flatmx0 mxtrace0.
    rewrite /icip big1 ?mul0r // => j _.
    by rewrite [adj Q *m L j *m Q]flatmx0 mxtrace0 mulr0.
  move: (qr_q (columns sp.2)) eq => Q eq /=.
  have ch j : (j < n)%N -> \tr (adj Q *m L j *m Q) = \tr (aget (nth arr0 As k0) j).
    move=> jl; have [x <-] := ival_surj G jl.
    by rewrite (equivalent_char (proj1 (iequivalentE G _ _) eq) (x := x)) ?inE.
  rewrite ch // (bigD1 (Ordinal kl)) //= big1 => [|k kk]; rewrite (@icip_char _ _ _ _ _ _ ch).
    by have [_ _ _ -> _] := f1 k0 kl; rewrite divff // mul1r addr0.
  by rewrite f2 ?mul0r // => E; case/eqP: kk; exact: val_inj.
apply/eqP; rewrite -(eqr_nat C) eq_sym natr_sum (big_nth arr0) big_mkord; apply/eqP.
have en := ig_e G.
rewrite -(mxtrace1 C N) -(proj1 pL) (trace_split hM) big_seq.
under eq_bigr => sp spin do rewrite (tr1 _ _ spin en).
rewrite -big_seq exchange_big /=; apply: eq_bigr => k _; rewrite -mulr_suml.
have [_ [-> _] _ _ _] := f1 k (ltn_ord k); rewrite mxtrace1.
rewrite -mulr_suml (_ : \sum_(sp <- _) _ = icip n (aget (nth arr0 As k)) L).
  by rewrite one // divff // mul1r.
rewrite /icip exchange_big /=; apply: eq_bigr => i _; rewrite (trace_split hM) mulr_sumr //.
Qed.
End Candidates.

(** * The averaged matrix (irreps.py:266-295) *)
Section Averaged.
Variables (C : numClosedFieldType) (n : nat) (ms : seq 'M[C]_n).

Lemma lookupP m (i j : 'I_n) : lookup ms m i = Some j ->
  nth 0 ms m i j != 0 /\ forall k, k != j -> nth 0 ms m i k = 0.
Proof.
rewrite /lookup; case E: [seq _ <- _ | _] => [|x [|y s]] // [<-].
have h k : (nth 0 ms m i k != 0) = (k == x).
  by have := mem_filter (fun k => nth 0 ms m i k != 0) k (enum 'I_n); rewrite E inE mem_enum andbT => ->.
by rewrite h; split=> // k kx; apply/eqP; rewrite -[_ == _]negbK h (negbTE kx).
Qed.
Lemma lookup_uniq m (i j : 'I_n) : nth 0 ms m i j != 0 -> (forall k, k != j -> nth 0 ms m i k = 0) ->
  lookup ms m i = Some j.
Proof.
move=> h1 h2; rewrite /lookup.
have -> : [seq j <- enum 'I_n | nth 0 ms m i j != 0] = [seq k <- enum 'I_n | k == j].
  by apply: eq_filter => k; case: (altP (k =P j)) => [->|kj]; [exact: h1|rewrite h2 ?eqxx].
by rewrite filter_pred1_uniq ?enum_uniq ?mem_enum.
Qed.

Hypothesis look : [forall m : 'I_n, forall i : 'I_n, lookup ms m i != None].
Lemma averagedE H : averaged ms H = \sum_(m < n) nth 0 ms m *m H^T *m adj (nth 0 ms m).
Proof.
apply/matrixP => i j; rewrite mxE summxE; apply: eq_bigr => m _.
have li : lookup ms m i != None by have /forallP /(_ i) := forallP look m.
have lj : lookup ms m j != None by have /forallP /(_ j) := forallP look m.
rewrite /reg_nonzero /reordered.
case Ei: (lookup ms m i) li => [a|//] _; case Ej: (lookup ms m j) lj => [b|//] _.
have [_ za] := lookupP Ei; have [_ zb] := lookupP Ej.
rewrite mxE (bigD1 b) //= big1 => [|l lb]; last by rewrite adjE (zb _ lb) conjC0 mulr0.
rewrite addr0 adjE mxE (bigD1 a) //= big1 => [|l la]; last by rewrite (za _ la) mul0r.
by rewrite addr0 mxE.
Qed.
Lemma averaged_herm H : adj H = H -> adj (averaged ms H) = averaged ms H.
Proof.
move=> hH; rewrite averagedE adj_sum; apply: eq_bigr => m _; rewrite !adjM adjK mulmxA; congr (_ *m _ *m _).
by rewrite -{2}hH /adj trmxK map_trmx trmxK.
Qed.
Variables (mul : nat -> nat -> nat) (e : nat) (mu : nat -> nat -> C).
Hypotheses (G : group_law n mul e) (imufs : ifactor_system n mul e mu).
Hypotheses (pL : iprojrep n mul e mu (nth 0 ms)) (uL : iunitary n (nth 0 ms)).
Lemma averaged_comm H i : (i < n)%N -> nth 0 ms i *m averaged ms H = averaged ms H *m nth 0 ms i.
Proof.
move=> il; have [x <-] := ival_surj G il; rewrite averagedE.
have -> : \sum_(m < n) nth 0 ms m *m H^T *m adj (nth 0 ms m) =
   avg [set: igT G]%G (fun g => nth 0 ms (ival g)) (fun g => nth 0 ms (ival g)) H^T.
  by rewrite /avg [RHS](eq_bigl predT) // => g; rewrite inE.
apply: (avg_intertwines (ifs_fs G imufs)); rewrite ?inE //.
- exact: (proj1 (iprojrepE G _ _) pL).
- exact: (proj1 (iprojrepE G _ _) pL).
- exact: (proj1 (iunitaryE G _) uL).
Qed.
End Averaged.

Section Herm.
Variables (C : numClosedFieldType) (hrnd : nat -> forall n, 'M[C]_n).
Lemma hermite_randomP j d : adj (hermite_random hrnd j d) = hermite_random hrnd j d.
Proof. by rewrite /hermite_random adjD adjK addrC. Qed.
End Herm.

(** The loops over trials. *)
Section Loops.
Variables (C : numClosedFieldType) (around : C -> C) (eigh : forall n, 'M[C]_n -> seq C * 'M[C]_n).
Variables (qr_q : forall n k, 'M[C]_(n, k) -> 'M[C]_(n, k)) (hrnd : nat -> forall n, 'M[C]_n).
Variables (key_le : C -> C -> bool) (rtol : C).

Lemma regular_loopP n (ms : seq 'M[C]_n) trials t0 :
  let try t := @get_irreps_from_matrix C around eigh qr_q key_le rtol (Arr ms) (averaged ms (hermite_random hrnd t n)) in
  let ok t := (\sum_(A <- try t) adim A ^ 2)%N == n in
  (exists t, [/\ (t0 <= t < t0 + trials)%N, ok t, forall t', (t0 <= t' < t)%N -> ~~ ok t' &
     regular_loop around eigh qr_q hrnd key_le rtol ms trials t0 = (try t, true)]) \/
  ((forall t, (t0 <= t < t0 + trials)%N -> ~~ ok t) /\
   regular_loop around eigh qr_q hrnd key_le rtol ms trials t0 = ([::], false)).
Proof.
move=> try ok; elim: trials t0 => [|trials IH] t0.
  by right; split=> // t; rewrite addn0 => /andP [h1 /(leq_ltn_trans h1)]; rewrite ltnn.
rewrite /= -/(try t0) -/(ok t0); case: ifP => [E|E].
  left; exists t0; split=> //; first by rewrite leqnn addnS ltnS leq_addr.
  by move=> t' /andP [h1 /(leq_ltn_trans h1)]; rewrite ltnn.
case: (IH t0.+1) => [[t [/andP [h1 h2] h3 h4 h5]]|[h1 h2]].
  left; exists t; split=> //; first by rewrite (ltnW h1) addnS -addSn.
  move=> t' /andP []; rewrite leq_eqVlt => /orP [/eqP <- _|h h']; first by rewrite E.
  by apply: h4; rewrite h.
right; split=> // t /andP []; rewrite leq_eqVlt => /orP [/eqP <- _|h h']; first by rewrite E.
by apply: h1; rewrite h addSn -addnS.
Qed.

Lemma decompose_loopP rep trials t0 :
  let try t := @get_irreps_from_matrix C around eigh qr_q key_le rtol rep
     (\sum_(M <- amats rep) M *m hermite_random hrnd t (adim rep) *m adj M) in
  let ok t := (\sum_(A <- try t) adim A)%N == adim rep in
  (exists t, [/\ (t0 <= t < t0 + trials)%N, ok t, forall t', (t0 <= t' < t)%N -> ~~ ok t' &
     decompose_loop around eigh qr_q hrnd key_le rtol rep trials t0 = (try t, true)]) \/
  ((forall t, (t0 <= t < t0 + trials)%N -> ~~ ok t) /\
   decompose_loop around eigh qr_q hrnd key_le rtol rep trials t0 = ([::], false)).
Proof.
move=> try ok; elim: trials t0 => [|trials IH] t0.
  by right; split=> // t; rewrite addn0 => /andP [h1 /(leq_ltn_trans h1)]; rewrite ltnn.
rewrite /= -/(try t0) -/(ok t0); case: ifP => [E|E].
  left; exists t0; split=> //; first by rewrite leqnn addnS ltnS leq_addr.
  by move=> t' /andP [h1 /(leq_ltn_trans h1)]; rewrite ltnn.
case: (IH t0.+1) => [[t [/andP [h1 h2] h3 h4 h5]]|[h1 h2]].
  left; exists t; split=> //; first by rewrite (ltnW h1) addnS -addSn.
  move=> t' /andP []; rewrite leq_eqVlt => /orP [/eqP <- _|h h']; first by rewrite E.
  by apply: h4; rewrite h.
right; split=> // t /andP []; rewrite leq_eqVlt => /orP [/eqP <- _|h h']; first by rewrite E.
by apply: h1; rewrite h addSn -addnS.
Qed.
End Loops.
