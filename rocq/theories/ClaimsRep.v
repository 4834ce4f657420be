(** Property theorems C20, C21, C29, C39 and the first part of C45 (representation.py). *)
From Coq Require Import QArith List ZArith Lia.
From mathcomp Require Import all_ssreflect all_algebra all_fingroup.
From mathcomp.real_closed Require Import mxtens.
From Verif Require Import Py Mat3 GroupModel GroupSpec GroupProofs RepSpec RepModel RepTheory IsoTheory
  IndexRepSpec IndexGroup RepProofs Mx2 ChainModel ClaimsChain.
Import Order.TTheory GRing.Theory Num.Theory.
Set Implicit Arguments.
Unset Strict Implicit.
Unset Printing Implicit Defensive.
Local Open Scope ring_scope.

(* ---------- C20 ---------- *)
Theorem C20_regular_representation : forall (C : numClosedFieldType) rots (mu : nat -> nat -> C),
  lists_group rots ->
  let n := length rots in
  exists (ms : seq 'M[C]_n) t e,
    get_projective_regular_representation rots mu = Ret (Arr ms) /\ size ms = n /\
    get_cayley_table rots = Ret t /\ (e < n)%N /\ List.nth e rots mid = mid /\
    (forall (k : nat) (i j : 'I_n), (k < n)%N ->
       (mmul (List.nth k rots mid) (List.nth j rots mid) = List.nth i rots mid -> nth 0 ms k i j = mu k j) /\
       (mmul (List.nth k rots mid) (List.nth j rots mid) <> List.nth i rots mid -> nth 0 ms k i j = 0)) /\
    ((forall a b, (a < n)%N -> (b < n)%N -> nth 0 ms a *m nth 0 ms b = mu a b *: nth 0 ms (tget t a b)) <->
     (forall i j k, (i < n)%N -> (j < n)%N -> (k < n)%N ->
        mu i (tget t j k) * mu j k = mu (tget t i j) k * mu i j)) /\
    ((forall a, (a < n)%N -> nth 0 ms a *m adj (nth 0 ms a) = 1%:M) <->
     (forall i j, (i < n)%N -> (j < n)%N -> `|mu i j| = 1)) /\
    ((forall j, (j < n)%N -> mu e j = 1) ->
     forall k, (k < n)%N -> \tr (nth 0 ms k) = if k == e then n%:R else 0).
Proof.
move=> C rots mu L n.
have [t Ht] := cayley_rot_total rots (lg_mul _ L).
have [e [He Ee]] := In_nth_lt _ _ mid (lg_id _ L).
have G := cayley_rot_group_law rots t e L Ht He Ee.
have [_ [_ sp]] := cayley_rot_spec rots t Ht.
exists (regular_mats t mu n), t, e; rewrite /get_projective_regular_representation Ht.
split; first by [].
split; first by rewrite size_map size_iota.
split; first by [].
split; first exact/ssrnat.ltP.
split; first by [].
split.
  move=> k i j kn; have := regE t mu i j kn; rewrite /aget /= => ->.
  have [l1 [l2 l3]] := sp k j (elimT ssrnat.ltP kn) (elimT ssrnat.ltP (ltn_ord j)).
  split=> h; case: eqP => // h'; last by case: h; rewrite -l2 h'.
  case: h'; apply: (proj1 (NoDup_nth rots mid) (lg_nodup _ L)) => //; last by rewrite l2.
  exact/ssrnat.ltP/(ltn_ord i).
split; first exact: (reg_rep_iff G mu).
split; first exact: (reg_unitary_iff G mu).
exact: (reg_char G).
Qed.
Print Assumptions C20_regular_representation.
Theorem C20_regular_raises : forall (C : numClosedFieldType) rots (mu : nat -> nat -> C) x,
  get_projective_regular_representation rots mu = Raise x <-> get_cayley_table rots = Raise x.
Proof.
move=> C rots mu x; rewrite /get_projective_regular_representation; case: get_cayley_table => [a|y] /=; first by split.
by split=> -[->].
Qed.
Print Assumptions C20_regular_raises.

(* ---------- C21 ---------- *)
Section Inter.
Variables (C : numClosedFieldType) (cpowinv : C -> nat -> C) (rnd : nat -> forall d, 'M[C]_d).
Hypothesis cpowinvP : forall z m, (0 < m)%N -> cpowinv z m ^+ m = z.
Variables (n : nat) (mul : nat -> nat -> nat) (e : nat) (mu : nat -> nat -> C).
Hypotheses (G : group_law n mul e) (fs : ifactor_system n mul e mu).
Local Notation run := (get_intertwiner cpowinv rnd).

Lemma get_intertwinerE d (ms1 ms2 : seq 'M[C]_d) atol mx : size ms1 = size ms2 ->
  run atol mx (Arr ms1) (Arr ms2) =
  match get_intertwiner_mats cpowinv rnd atol mx ms1 ms2 with Some M => Ret (M, true) | None => Ret (0, false) end.
Proof.
move=> sz; rewrite /get_intertwiner /=; case: eqP => // E.
by rewrite (eq_irrelevance E (erefl d)) /= /aorder /= sz eqxx.
Qed.

(** A successful result intertwines; for irreducible arguments it is unitary with
    determinant one. *)
Theorem C21_intertwiner_success : forall d (ms1 ms2 : seq 'M[C]_d) atol mx M,
  size ms1 = n -> size ms2 = n -> 0 <= atol ->
  iprojrep n mul e mu (nth 0 ms1) -> iunitary n (nth 0 ms1) ->
  iprojrep n mul e mu (nth 0 ms2) -> iunitary n (nth 0 ms2) ->
  run atol mx (Arr ms1) (Arr ms2) = Ret (M, true) ->
  (forall g, (g < n)%N -> nth 0 ms1 g *m M = M *m nth 0 ms2 g) /\
  (iirreducible n (nth 0 ms1) -> iirreducible n (nth 0 ms2) ->
     iequivalent n (nth 0 ms1) (nth 0 ms2) /\ M *m adj M = 1%:M /\ \det M = 1).
Proof.
move=> d ms1 ms2 atol mx M s1 s2 a0 p1 u1 p2 u2.
rewrite get_intertwinerE ?s1 ?s2 // /get_intertwiner_mats; case E: intertwiner_search => [N|] // [EN].
subst N; have [j [_ nz ->]] := search_Some E.
have nz0 : intertwiner_sum ms1 ms2 (rnd j d) != 0.
  apply: contraNneq nz => ->; apply/forallP => x; apply/forallP => y; by rewrite mxE normr0.
split=> [g gn|i1 i2].
  by rewrite -scalemxAr (isum_intertwines G fs s1 s2 p1 p2 u2) // -scalemxAl.
split; last exact: (normalised G fs cpowinvP s1 s2 p1 u1 p2 u2 i1 i2 nz0).
case: (isum_dich G fs s1 s2 p1 u1 p2 u2 i1 i2 (rnd j d)) => [z|//]; by rewrite z eqxx in nz0.
Qed.

(** Failure (the zero matrix and the warning) happens exactly when every sample is close to
    zero; inequivalent irreducible arguments always end there. *)
Theorem C21_intertwiner_failure_iff : forall d (ms1 ms2 : seq 'M[C]_d) atol mx,
  size ms1 = size ms2 ->
  (run atol mx (Arr ms1) (Arr ms2) = Ret (0, false) <->
   forall j, (j < mx)%N -> forall x y, `|(\sum_(g < size ms1) nth 0 ms1 g *m rnd j d *m adj (nth 0 ms2 g)) x y| <= atol) /\
  (forall x, run atol mx (Arr ms1) (Arr ms2) <> Raise x) /\
  (forall M, run atol mx (Arr ms1) (Arr ms2) = Ret (M, false) -> M = 0).
Proof.
move=> d ms1 ms2 atol mx sz; rewrite get_intertwinerE //; split.
  have -> : (forall j, (j < mx)%N -> forall x y,
      `|(\sum_(g < size ms1) nth 0 ms1 g *m rnd j d *m adj (nth 0 ms2 g)) x y| <= atol) <->
      (forall j, (0 <= j < 0 + mx)%N -> allclose0 atol (intertwiner_sum ms1 ms2 (rnd j d))).
    have E j : intertwiner_sum ms1 ms2 (rnd j d) = \sum_(g < size ms1) nth 0 ms1 g *m rnd j d *m adj (nth 0 ms2 g).
      rewrite /intertwiner_sum (big_nth (0, 0)) size_zip sz minnn big_mkord.
      by apply: eq_bigr => i _; rewrite nth_zip.
    split=> h j jm.
      by apply/forallP => x; apply/forallP => y; rewrite E h.
    by move=> x y; have := h j; rewrite add0n jm E => /(_ isT) /forallP /(_ x) /forallP /(_ y).
  rewrite -(search_None_iff cpowinv) /get_intertwiner_mats; by case: intertwiner_search => [M|]; split.
split; first by case: get_intertwiner_mats.
by move=> M; case: get_intertwiner_mats => // -[].
Qed.
Theorem C21_inequivalent_fail : forall d (ms1 ms2 : seq 'M[C]_d) atol mx,
  size ms1 = n -> size ms2 = n -> 0 <= atol ->
  iprojrep n mul e mu (nth 0 ms1) -> iunitary n (nth 0 ms1) -> iirreducible n (nth 0 ms1) ->
  iprojrep n mul e mu (nth 0 ms2) -> iunitary n (nth 0 ms2) -> iirreducible n (nth 0 ms2) ->
  ~ iequivalent n (nth 0 ms1) (nth 0 ms2) ->
  (forall X, \sum_(g < n) nth 0 ms1 g *m X *m adj (nth 0 ms2 g) = 0) /\
  run atol mx (Arr ms1) (Arr ms2) = Ret (0, false).
Proof.
move=> d ms1 ms2 atol mx s1 s2 a0 p1 u1 i1 p2 u2 i2 ne.
have Z X : \sum_(g < n) nth 0 ms1 g *m X *m adj (nth 0 ms2 g) = 0.
  apply: etrans (isum_ineq G fs s1 s2 p1 u1 p2 u2 i1 i2 X ne); rewrite /intertwiner_sum (big_nth (0, 0)) size_zip s1 s2 minnn big_mkord.
  by apply: eq_bigr => i _; rewrite nth_zip ?s1 ?s2.
split=> //; have [h _] := @C21_intertwiner_failure_iff d ms1 ms2 atol mx (etrans s1 (esym s2)).
by apply/h => j jm x y; rewrite s1 Z mxE normr0.
Qed.
End Inter.
Theorem C21_shape_assertion : forall (C : numClosedFieldType) (cpowinv : C -> nat -> C) rnd atol mx (A B : arr C),
  get_intertwiner cpowinv rnd atol mx A B = Raise AssertionError <-> adim A <> adim B \/ aorder A <> aorder B.
Proof.
move=> C cpowinv rnd atol mx A B; rewrite /get_intertwiner; case: eqP => E; last first.
  by split=> // _; left => h; apply: E.
case: ifP => [/eqP h|/eqP h]; last by split=> // _; right.
split; last by case=> h'; exfalso; apply: h'.
by case: get_intertwiner_mats.
Qed.
Print Assumptions C21_intertwiner_success.
Print Assumptions C21_intertwiner_failure_iff.
Print Assumptions C21_inequivalent_fail.
Print Assumptions C21_shape_assertion.

(* ---------- C29 ---------- *)
(** [rnd_int] is int(np.around(np.real(.))); only its value on integers is used. *)
Theorem C29_frobenius_schur : forall (C : numClosedFieldType) (rnd_int : C -> int) n mul e (mu : nat -> nat -> C) (A : arr C),
  (forall z : int, rnd_int z%:~R = z) ->
  group_law n mul e -> ifactor_system n mul e mu ->
  (forall i j, (i < n)%N -> (j < n)%N -> mu i j \is Num.real) ->
  aorder A = n -> iprojrep n mul e mu (aget A) -> iunitary n (aget A) -> iirreducible n (aget A) ->
  let inter X := forall g, (g < n)%N -> aget A g *m X = X *m map_mx conjC (aget A g) in
  exists v, frobenius_schur_indicator rnd_int A = Ret v /\
    ((v = 1 /\ exists U, inter U /\ U *m adj U = 1%:M /\ U^T = U) \/
     (v = -1 /\ exists U, inter U /\ U *m adj U = 1%:M /\ U^T = - U) \/
     (v = 0 /\ forall X, inter X -> X = 0)).
Proof.
move=> C rnd_int n mul e mu A ri G fs mr sz pA uA iA inter.
have n0 := n_neq0 C G.
have E : \sum_(M <- amats A) \sum_i \sum_j M i j * M j i = fs_sum n (aget A).
  by rewrite /fs_sum (big_nth 0) big_mkord -/(aorder A) sz.
rewrite /frobenius_schur_indicator E sz.
case: (fs_cases G fs mr pA uA iA) => [[-> h]|[U [h1 h2 [[h3 ->]|[h3 ->]]]]].
- by rewrite mul0r (ri 0) /=; exists 0; split=> //; right; right.
- by rewrite divff // (ri 1) /=; exists 1; split=> //; left; split=> //; exists U.
- by rewrite mulNr divff // (ri (-1)) /=; exists (-1); split=> //; right; left; split=> //; exists U.
Qed.
Print Assumptions C29_frobenius_schur.

(* ---------- C39 ---------- *)
Theorem C39_direct_product : forall (C : numClosedFieldType) (A B : arr C),
  aorder A = aorder B ->
  exists ms : seq 'M[C]_(adim A * adim B),
    get_direct_product A B = Ret (Arr ms) /\ size ms = aorder A /\
    (forall g (i j : 'I_(adim A)) (k l : 'I_(adim B)) (x y : 'I_(adim A * adim B)), (g < aorder A)%N ->
       val x = (val i * adim B + val k)%N -> val y = (val j * adim B + val l)%N ->
       nth 0 ms g x y = aget A g i j * aget B g k l) /\
    (forall g, (g < aorder A)%N -> \tr (nth 0 ms g) = \tr (aget A g) * \tr (aget B g)) /\
    (forall mul e mu1 mu2, (forall i j, (i < aorder A)%N -> (j < aorder A)%N -> (mul i j < aorder A)%N) ->
       (e < aorder A)%N ->
       iprojrep (aorder A) mul e mu1 (aget A) -> iprojrep (aorder A) mul e mu2 (aget B) ->
       iprojrep (aorder A) mul e (fun i j => mu1 i j * mu2 i j) (nth 0 ms)) /\
    (iunitary (aorder A) (aget A) -> iunitary (aorder A) (aget B) -> iunitary (aorder A) (nth 0 ms)).
Proof.
move=> C A B sz; rewrite /get_direct_product sz eqxx; eexists; split; first by [].
rewrite size_map size_zip -/(aorder A) -/(aorder B) sz minnn; split=> //.
set ms := map _ _.
have E g : (g < aorder B)%N -> nth 0 ms g = aget A g *t aget B g.
  move=> gn; rewrite /ms (nth_map (0, 0)); last by rewrite size_zip -/(aorder A) -/(aorder B) sz minnn.
  by rewrite nth_zip.
split.
  move=> g i j k l x y gn hx hy; rewrite E //.
  have -> : x = mxtens_index (i, k) by apply: val_inj.
  have -> : y = mxtens_index (j, l) by apply: val_inj.
  by rewrite tensmxE.
split; first by move=> g gn; rewrite E // tr_tens.
split.
  move=> mul e mu1 mu2 cl en [a1 a2] [b1 b2]; split; first by rewrite E // a1 b1 tens1.
  by move=> i j hi hj; rewrite !E ?cl // tensmx_mul a2 // b2 // tensZ.
by move=> ua ub g gn; rewrite E // adj_tens tensmx_mul ua // ub // tens1.
Qed.
Theorem C39_direct_product_shapes : forall (C : numClosedFieldType) (A B : arr C),
  get_direct_product A B = Raise ValueError <-> aorder A <> aorder B.
Proof. by move=> C A B; rewrite /get_direct_product; case: eqP. Qed.
Print Assumptions C39_direct_product.
Print Assumptions C39_direct_product_shapes.

(* ---------- C45 (is_unitary, is_representation) ---------- *)
Definition exact (C : numClosedFieldType) (d : nat) (X Y : 'M[C]_d) : bool := X == Y.
Theorem C45_is_unitary_iff : forall (C : numClosedFieldType) (A : arr C),
  is_unitary (@exact C) A = true <-> iunitary (aorder A) (aget A).
Proof.
move=> C A; rewrite /is_unitary; split=> [/all_nthP h i hi|h].
  by apply/eqP; apply: h.
by apply/(all_nthP 0) => i hi; apply/eqP; apply: h.
Qed.
Theorem C45_is_representation_iff : forall (C : numClosedFieldType) (A : arr C) t mu,
  is_representation (@exact C) A t mu = true <->
  forall i j, (i < aorder A)%N -> (j < aorder A)%N -> aget A i *m aget A j = mu i j *: aget A (tget t i j).
Proof.
move=> C A t mu; rewrite /is_representation; split=> [/allP h i j hi hj|h].
  have := h i; rewrite mem_iota add0n hi => /(_ isT) /allP /(_ j).
  by rewrite mem_iota add0n hj => /(_ isT) /eqP.
by apply/allP => i; rewrite mem_iota add0n => hi; apply/allP => j; rewrite mem_iota add0n => hj; apply/eqP; exact: h.
Qed.
Print Assumptions C45_is_unitary_iff.
Print Assumptions C45_is_representation_iff.

(** A case meeting the hypotheses of C21 and C29: the two-dimensional quaternion
    representation of 222 with the spin-1/2 factor system. *)
Definition ex_quat (C : numClosedFieldType) : arr C :=
  @Arr C 2 [:: 1%:M; mx2 'i 0 0 (- 'i); mx2 0 1 (-1) 0; mx2 0 'i 'i 0].
Example C21_C29_hypotheses_met (C : numClosedFieldType) :
  [/\ aorder (ex_quat C) = 4%N, iprojrep 4 (tget ex_t) 0 (@ex_mu C) (aget (ex_quat C)),
      iunitary 4 (aget (ex_quat C)), iirreducible 4 (aget (ex_quat C)) &
      forall i j, (i < 4)%N -> (j < 4)%N -> @ex_mu C i j \is Num.real].
Proof.
have [_ [G [fs _]]] := C22_hypotheses_met C.
have case4 i : (i < 4)%N -> [\/ i = 0%N, i = 1%N, i = 2%N | i = 3%N].
  by case: i => [|[|[|[|]]]] // _; [constructor 1|constructor 2|constructor 3|constructor 4].
have ii : 'i * 'i = -1 :> C by rewrite -expr2 sqrCi.
have E : [/\ aget (ex_quat C) 0 = mx2 1 0 0 1, aget (ex_quat C) 1 = mx2 'i 0 0 (- 'i),
   aget (ex_quat C) 2 = mx2 0 1 (-1) 0 & aget (ex_quat C) 3 = mx2 0 'i 'i 0].
  by split; rewrite /aget //= mx2_1.
case: E => E0 E1 E2 E3.
have P : iprojrep 4 (tget ex_t) 0 (@ex_mu C) (aget (ex_quat C)).
  split=> // i j /case4 [] -> /case4 [] ->; rewrite /= /tget /= ?(E0, E1, E2, E3) mx2M /ex_mu !inE /= ?scale1r ?mx2Z;
  by congr mx2; rewrite ?(mulrN, mulNr, mul0r, mulr0, mul1r, mulr1, addr0, add0r, oppr0, opprK, ii).
have U : iunitary 4 (aget (ex_quat C)).
  move=> i /case4 [] ->; rewrite /= ?(E0, E1, E2, E3) mx2_adj mx2M mx2_1;
  by congr mx2; rewrite ?(rmorphN, conjCi, conjC0, conjC1, rmorph1, mulrN, mulNr, mul0r, mulr0, mul1r, mulr1, addr0, add0r, oppr0, opprK, ii).
split=> //.
- apply/(iirreducibleE G); apply: (norm1_irreducible (ifs_fs G fs) (H := [set: igT G]%G)).
  + exact/(iprojrepE G).
  + exact/(iunitaryE G).
  + rewrite /= cardsT ival_card -(icipE G (aget (ex_quat C)) (aget (ex_quat C))) /icip.
    rewrite !big_ord_recl big_ord0 /= /bump /= ?add0n ?add1n E0 E1 E2 E3 !mx2_tr.
    rewrite subrr addr0 conjC0 !mul0r !addr0 conj_Creal ?rpredD ?rpred1 //.
    by rewrite -(natrD _ 1 1) -natrM.
- by move=> i j _ _; rewrite /ex_mu; case: ifP => _; rewrite ?rpredN rpred1.
Qed.
