(** The two-dimensional irrep of the group 422 (D4) in a rotated basis, for which
    get_physically_irrep fails with a valid eigendecomposition. *)
From Coq Require Import QArith ZArith Field.
From mathcomp Require Import all_ssreflect all_algebra all_fingroup.
From Verif Require Import GroupSpec RepSpec RepModel RepTheory IndexRepSpec IndexGroup RepProofs ChainModel SmallModel SmallSpec SpinorSpec SpinorExamples Mx2 FieldTac
  RealSpec RealTheory RealOutcome RealType.
Import Order.TTheory GRing.Theory Num.Theory.
Set Implicit Arguments.
Unset Strict Implicit.
Unset Printing Implicit Defensive.
Local Open Scope ring_scope.

(** r^a s^b has index a + 4 b. *)
Definition d4_mul (i j : nat) : nat :=
  let a := (i %% 4)%N in let b := (i %/ 4)%N in let a' := (j %% 4)%N in let b' := (j %/ 4)%N in
  ((if b == 0%N then a + a' else a + 4 - a') %% 4 + 4 * ((b + b') %% 2))%N.
Lemma d4_group : group_law 8 d4_mul 0.
Proof.
have cl : all (fun i => all (fun j => (d4_mul i j < 8)%N) (iota 0 8)) (iota 0 8) by vm_compute.
have asc : all (fun i => all (fun j => all (fun k => d4_mul i (d4_mul j k) == d4_mul (d4_mul i j) k) (iota 0 8)) (iota 0 8)) (iota 0 8) by vm_compute.
have un : all (fun i => (d4_mul 0 i == i) && (d4_mul i 0 == i)) (iota 0 8) by vm_compute.
pose iv i := (if i < 4 then (4 - i) %% 4 else i)%N.
have inv : all (fun i => [&& (iv i < 8)%N, d4_mul i (iv i) == 0%N & d4_mul (iv i) i == 0%N]) (iota 0 8) by vm_compute.
have io i : (i < 8)%coq_nat -> i \in iota 0 8 by move=> /ssrnat.ltP h; rewrite mem_iota.
split=> [i j /io hi /io hj|i j k /io hi /io hj /io hk||i /io hi|i /io hi|i /io hi].
- exact/ssrnat.ltP/(allP (allP cl i hi) j hj).
- exact/eqP/(allP (allP (allP asc i hi) j hj) k hk).
- exact/ssrnat.ltP.
- by have /andP [/eqP] := allP un i hi.
- by have /andP [_ /eqP] := allP un i hi.
- have /and3P [/ssrnat.ltP h1 /eqP h2 /eqP h3] := allP inv i hi; exists (iv i); split; [exact: h1|split; [exact: h2|exact: h3]].
Qed.

(** The irrep in the real basis (c, s), (-s, c): r and s are represented by i X and Z where
    X and Z are the reflections [[-q, p], [p, q]] and [[p, q], [q, -p]] with p = cos 2t and
    q = sin 2t. *)
Section Witness.
Variable C : numClosedFieldType.
Add Field witC : (fth C).
Definition d4_r (p q : C) : 'M[C]_2 := 'i *: mx2 (- q) p p q.
Definition d4_s (p q : C) : 'M[C]_2 := mx2 p q q (- p).
Definition d4_rs : 'M[C]_2 := mx2 0 (- 'i) 'i 0.
Definition d4_rotated (p q : C) : arr C :=
  @Arr C 2 [:: 1%:M; d4_r p q; - 1%:M; - d4_r p q; d4_s p q; d4_rs; - d4_s p q; - d4_rs].

Section Rep.
Variables p q : C.
Hypotheses (rp : p \is Num.real) (rq : q \is Num.real) (pq : p * p + q * q = 1).
Local Notation r := (d4_r p q).
Local Notation s := (d4_s p q).
Local Notation y := d4_rs.
Lemma ii : 'i * 'i = -1 :> C. Proof. by rewrite -expr2 sqrCi. Qed.
Lemma m_rr : r *m r = - 1%:M.
Proof.
rewrite /d4_r -scalemxAl -scalemxAr scalerA ii scaleN1r mx2M mx2_1 -pq; congr (- _); congr mx2; to_field C; ring.
Qed.
Lemma m_ss : s *m s = 1%:M.
Proof. by rewrite /d4_s mx2M mx2_1 -pq; congr mx2; to_field C; ring. Qed.
Lemma m_rs : r *m s = y.
Proof.
have i1 : 'i = 'i * (p * p + q * q) :> C by rewrite pq mulr1.
by rewrite /d4_r /d4_s -scalemxAl mx2M mx2Z /d4_rs; congr mx2; rewrite 1?[in RHS]i1; to_field C; ring.
Qed.
Lemma m_sr : s *m r = - y.
Proof.
have i1 : 'i = 'i * (p * p + q * q) :> C by rewrite pq mulr1.
by rewrite /d4_r /d4_s -scalemxAr mx2M mx2Z /d4_rs -scaleN1r mx2Z; congr mx2; rewrite 1?[in RHS]i1; to_field C; ring.
Qed.
Lemma m_ry : r *m y = - s. Proof. by rewrite -m_rs mulmxA m_rr mulNmx mul1mx. Qed.
Lemma m_ys : y *m s = r. Proof. by rewrite -m_rs -mulmxA m_ss mulmx1. Qed.
Lemma m_sy : s *m y = - r. Proof. by rewrite -m_rs mulmxA m_sr mulNmx m_ys. Qed.
Lemma m_yr : y *m r = s. Proof. by rewrite -m_rs -mulmxA m_sr mulmxN m_ry opprK. Qed.
Lemma m_yy : y *m y = 1%:M. Proof. by rewrite -{2}m_rs mulmxA m_yr m_ss. Qed.

Lemma a_r : adj r = - r.
Proof.
by rewrite /d4_r adjZ conjCi mx2_adj !rmorphN !(conj_Creal rp) !(conj_Creal rq) scaleNr.
Qed.
Lemma a_s : adj s = s.
Proof. by rewrite /d4_s mx2_adj !rmorphN !(conj_Creal rp) !(conj_Creal rq). Qed.
Lemma a_y : adj y = y.
Proof. by rewrite /d4_rs mx2_adj rmorphN conjCi opprK conjC0. Qed.
Lemma c_r : map_mx conjC r = - r.
Proof. by rewrite /d4_r map_mxZ /= conjCi mx2_conj !rmorphN !(conj_Creal rp) !(conj_Creal rq) scaleNr. Qed.
Lemma c_s : map_mx conjC s = s.
Proof. by rewrite /d4_s mx2_conj !rmorphN !(conj_Creal rp) !(conj_Creal rq). Qed.
Lemma c_y : map_mx conjC y = - y.
Proof. by rewrite /d4_rs mx2_conj rmorphN conjCi conjC0 -scaleN1r mx2Z; congr mx2; rewrite ?mulr0 ?mulN1r ?opprK. Qed.

Definition d4_table := (m_rr, m_ss, m_rs, m_sr, m_ry, m_ys, m_sy, m_yr, m_yy).
Lemma case8 (P : nat -> Prop) : P 0%N -> P 1%N -> P 2%N -> P 3%N -> P 4%N -> P 5%N -> P 6%N -> P 7%N -> forall i, (i < 8)%N -> P i.
Proof. by move=> ? ? ? ? ? ? ? ? [|[|[|[|[|[|[|[|]]]]]]]]. Qed.
Lemma d4_rep : iprojrep 8 d4_mul 0 (fun _ _ => 1) (aget (d4_rotated p q)).
Proof.
split=> // i j hi hj; rewrite scale1r; move: i hi j hj; apply: case8; apply: case8;
  rewrite /aget /= ?mulmxN ?mulNmx ?mul1mx ?mulmx1 ?opprK ?d4_table ?opprK //.
Qed.
Lemma d4_unitary : iunitary 8 (aget (d4_rotated p q)).
Proof.
apply: case8; rewrite /aget /= /adj ?map_mxN ?linearN /= ?map_mx1 ?trmx1 -?/(adj _) ?a_r ?a_s ?a_y
  ?mulmxN ?mulNmx ?mulmx1 ?d4_table ?opprK //.
Qed.
Lemma d4_factor : ifactor_system 8 d4_mul 0 (fun _ _ => 1 : C).
Proof. by split=> *; rewrite ?mulr1 ?normr1. Qed.
Lemma d4_irreducible : iirreducible 8 (aget (d4_rotated p q)).
Proof.
apply/(iirreducibleE d4_group); apply: (norm1_irreducible (ifs_fs d4_group d4_factor) (H := [set: igT d4_group]%G)).
- exact/(iprojrepE d4_group)/d4_rep.
- exact/(iunitaryE d4_group)/d4_unitary.
- rewrite /= cardsT ival_card -(icipE d4_group (aget (d4_rotated p q)) (aget (d4_rotated p q))) /icip.
  have t1 : \tr (1%:M : 'M[C]_2) = 2%:R by rewrite mxtrace1.
  have tr0 : \tr r = 0 by rewrite /d4_r mxtraceZ mx2_tr addNr mulr0.
  have ts0 : \tr s = 0 by rewrite /d4_s mx2_tr subrr.
  have ty0 : \tr y = 0 by rewrite /d4_rs mx2_tr addr0.
  rewrite !big_ord_recl big_ord0 /= /bump /= ?add0n ?add1n /aget /= !raddfN /= tr0 ts0 ty0 t1.
  by rewrite !conjC0 ?oppr0 !mulr0 !add0r ?addr0 mulrNN conj_Creal ?realn // -natrM -natrD.
Qed.
Lemma d4_inter g : (g < 8)%N -> aget (d4_rotated p q) g *m s = s *m map_mx conjC (aget (d4_rotated p q) g).
Proof.
move: g; apply: case8; rewrite /aget /= ?map_mxN ?map_mx1 ?c_r ?c_s ?c_y ?mulmxN ?mulNmx ?mul1mx ?mulmx1 ?d4_table ?opprK //.
Qed.
Lemma d4_real_type : fs_meaning 8 (aget (d4_rotated p q)) 1.
Proof.
apply: Or31; split=> //; exists s; split; [exact: d4_inter|by rewrite a_s m_ss|].
by rewrite /d4_s mx2_trmx.
Qed.
End Rep.

Section Fail.
Variables c s : C.
Hypotheses (rc : c \is Num.real) (rs : s \is Num.real) (cs1 : c * c + s * s = 1).
Let p := c * c - s * s.
Let q := c * s + c * s.
Hypotheses (p0 : p != 0) (q0 : q != 0).
Lemma w_pq : p * p + q * q = 1.
Proof. 
have -> : 1 = (c * c + s * s) * (c * c + s * s) by rewrite cs1 mulr1.
by rewrite /p /q; to_field C; ring.
Qed.
Lemma w_rp : p \is Num.real. Proof. by rewrite /p rpredB ?rpredM. Qed.
Lemma w_rq : q \is Num.real. Proof. by rewrite /q rpredD ?rpredM. Qed.
Local Notation V := (mx2 c (- s) s c).
Lemma V_orth : V^T *m V = 1%:M.
Proof. by rewrite mx2_trmx mx2M mx2_1 -cs1; congr mx2; to_field C; ring. Qed.
Lemma sV : d4_s p q *m V = V *m mx2 1 0 0 (-1).
Proof.
rewrite /d4_s !mx2M; congr mx2; rewrite ?mulr1 ?mulr0 ?addr0 ?add0r ?mulrN1 ?opprK /p /q.
- by transitivity (c * (c * c + s * s)); [to_field C; ring|rewrite cs1 mulr1].
- by transitivity (s * (c * c + s * s)); [to_field C; ring|rewrite cs1 mulr1].
- by transitivity (s * (c * c + s * s)); [to_field C; ring|rewrite cs1 mulr1].
- by transitivity (- (c * (c * c + s * s))); [to_field C; ring|rewrite cs1 mulr1].
Qed.
Let A := mx2 (c * c) (- (c * s)) (- (c * s)) (s * s).
Let B := mx2 (s * s) (c * s) (c * s) (c * c).
Let P := (p * p - q * q) *: mx2 p (- q) (- q) (- p).
Lemma w_diag : A *m d4_s p q *m A + B *m d4_s p q *m B = P.
Proof. by rewrite /A /B /P /d4_s !mx2M mx2D mx2Z /p /q; congr mx2; to_field C; ring. Qed.
Lemma w_off : B *m d4_s p q *m A - A *m d4_s p q *m B = (p * q + p * q) *: mx2 0 (-1) 1 0.
Proof.
have -> : p * q + p * q = (p * q + p * q) * (c * c + s * s) by rewrite cs1 mulr1.
by rewrite /A /B /d4_s -scaleN1r !mx2M !mx2Z mx2D /p /q; congr mx2; to_field C; ring.
Qed.
Lemma w_one : A *m A + B *m B = 1%:M.
Proof.
have -> : (1%:M : 'M[C]_2) = ((c * c + s * s) * (c * c + s * s))%:M by rewrite cs1 mulr1.
by rewrite mx2_s /A /B !mx2M mx2D; congr mx2; to_field C; ring.
Qed.
Lemma w_zero : A *m B = 0 /\ B *m A = 0.
Proof.
have z : (0 : 'M[C]_2) = mx2 0 0 0 0 by apply: mx2P; split; rewrite !mxE.
by rewrite z /A /B !mx2M; split; congr mx2; to_field C; ring.
Qed.
Local Notation D := (d4_rotated p q).
Variables (E : numpy C) (atol : C) (max_num : nat) (U : 'M[C]_2).
Hypothesis powinvP : forall z m, (0 < m)%N -> np_powinv E z m ^+ m = z.
Hypothesis nrootP : forall z m, (0 < m)%N -> np_nroot E z m ^+ m = z.
Hypotheses (a0 : 0 <= atol) (ac : atol < `|c|).
Hypothesis found : get_intertwiner_mats (np_powinv E) (np_rnd E) atol max_num (amats D) [seq map_mx conjC M | M <- amats D] = Some U.
Hypothesis vecs : (np_eig E U).2 = V.
Hypothesis valid : U *m V = V *m diag_mx (\row_i nth 0 (np_eig E U).1 i).

Lemma real_vector_unit (x y : C) (w : 'cV[C]_2) : x \is Num.real -> y \is Num.real -> x * x + y * y = 1 ->
  w ord0 0 = x -> w (lift ord0 ord0) 0 = y -> atol < `|x| \/ atol < `|y| -> real_vector atol w = w.
Proof.
move=> rx ry n1 wx wy big; rewrite /real_vector.
have re : map_mx (fun z => 'Re z) w = w.
  apply/matrixP=> i j; rewrite (ord1 j) mxE; apply: Creal_ReP.
  by move: i; apply: ord2P; rewrite ?wx ?wy.
have -> : allclose0 atol (map_mx (fun z => 'Re z) w) = false.
  apply/negP => /forallP h; rewrite re in h.
  have := h ord0; have := h (lift ord0 ord0); move=> /forallP /(_ 0) + /forallP /(_ 0).
  by rewrite wx wy; case: big => /lt_geF h1; rewrite h1.
rewrite re !big_ord_recl big_ord0 addr0 wx wy n1 sqrtC1 invr1 scale1r //.
Qed.

Lemma w_basis : eigenbasis E atol U = V.
Proof.
have nn : (- s) * (- s) + c * c = 1 by rewrite mulrNN addrC.
apply/matrixP=> i j; rewrite mxE vecs; move: j; apply: ord2P.
- by rewrite (real_vector_unit rc rs cs1) ?mxE //; left.
- rewrite (@real_vector_unit (- s) c) ?mxE ?rpredN //; by right.
Qed.

Lemma w_U : exists a, U = a *: d4_s p q /\ a * a = -1.
Proof.
have irr := d4_irreducible w_rp w_rq w_pq.
have [hU UU dU] := found_inter d4_group d4_factor (fun _ _ _ _ => rpred1 _) (d4_rep w_pq) (d4_unitary w_rp w_rq w_pq) irr powinvP a0 (erefl : size (amats D) = 8%N) (erefl : nth 0 (amats D) = aget D) found.
have hs := d4_inter w_rp w_rq w_pq.
have ss := m_ss w_pq.
have [a ha] : exists a, U *m d4_s p q = a%:M.
  apply: (ischur irr) => g hg; rewrite mulmxA hU // -!mulmxA; congr (_ *m _).
  have := congr1 (fun M => d4_s p q *m M *m d4_s p q) (hs g hg).
  by rewrite !mulmxA ss mul1mx -[X in X = _]mulmxA ss mulmx1.
exists a; have Ua : U = a *: d4_s p q by rewrite -mul_scalar_mx -ha -mulmxA ss mulmx1.
split=> //; move: dU; rewrite Ua /d4_s mx2Z mx2_det => h.
apply/eqP; rewrite eq_sym eqr_oppLR; apply/eqP; rewrite -{1}h.
transitivity (- (a * a) * (p * p + q * q)); first by to_field C; ring.
by rewrite w_pq mulr1.
Qed.

Lemma w_fails : exists R, get_physically_irrep E D 1 atol max_num = COk (@Arr C 2 R) /\
  size R = 8%N /\ nth 0 R 4 *m nth 0 R 4 <> nth 0 R (d4_mul 4 4).
Proof.
rewrite /get_physically_irrep eqxx found; eexists; split; first by reflexivity.
split=> //.
set T := sqrt_intertwiner E atol U.
have [a [Ua aa]] := w_U.
pose x := np_nroot E (nth 0 (np_eig E U).1 0) 2; pose y := np_nroot E (nth 0 (np_eig E U).1 1) 2.
have TE : T = mx2 c s (- s) c *m mx2 x 0 0 y *m V.
  rewrite /T /sqrt_intertwiner -/(eigenbasis E atol U) w_basis mx2_trmx; congr (_ *m _ *m _).
  by apply: mx2P; split; rewrite !mxE.
have [x2 y2] : x * x = a /\ y * y = - a.
  have : diag_mx (\row_(i < 2) nth 0 (np_eig E U).1 i) = a *: mx2 1 0 0 (-1).
    rewrite -[LHS]mul1mx -V_orth -mulmxA -valid Ua -scalemxAl sV -scalemxAr mulmxA V_orth mul1mx //.
  have -> : diag_mx (\row_(i < 2) nth 0 (np_eig E U).1 i) = mx2 (x * x) 0 0 (y * y).
    by apply: mx2P; split; rewrite !mxE /= ?mulr0n // -?expr2 nrootP.
  by rewrite mx2Z => /mx2_inj [-> _ _ ->]; rewrite mulr1 mulrN1.
have ax : `|a| = 1.
  apply/eqP; rewrite -(@eqr_expn2 _ 2) ?normr_ge0 ?ler01 // expr1n -normrX expr2 aa normrN1 //.
have xx : x * x^* = 1.
  by rewrite -normCK -normrX expr2 x2.
pose ep := y * x^*.
have ep2 : ep * ep = -1.
  have -> : ep * ep = (y * y) * (x * x)^* by rewrite /ep mulrACA rmorphM.
  by rewrite x2 y2 mulNr -normCK ax expr1n.
have yE : y = ep * x by rewrite /ep -mulrA [x^* * x]mulrC xx mulr1.
have epc : ep^* = - ep.
  have /eqP : ep ^+ 2 = 'i ^+ 2 by rewrite expr2 ep2 sqrCi.
  by rewrite eqf_sqr => /orP [] /eqP ->; rewrite ?rmorphN conjCi ?opprK.
have rcs : real_mx A /\ real_mx B.
  by split; apply: ord2P; apply: ord2P; rewrite !mxE /= ?rpredN rpredM.
have cA : map_mx conjC A = A by apply/real_cj; exact: rcs.1.
have cB : map_mx conjC B = B by apply/real_cj; exact: rcs.2.
have TM : T = x *: (A + ep *: B).
  rewrite TE yE /A /B mx2Z mx2D mx2Z !mx2M; congr mx2; to_field C; ring.
have cT : map_mx conjC T = x^* *: (A - ep *: B).
  by rewrite TM map_mxZ map_mxD map_mxZ /= cA cB epc scaleNr.
have sand N : T *m N *m map_mx conjC T = A *m N *m A + B *m N *m B + ep *: (B *m N *m A - A *m N *m B).
  rewrite cT TM -!scalemxAl -scalemxAr scalerA xx scale1r.
  rewrite mulmxBr !mulmxDl -!scalemxAl -!scalemxAr scalerA ep2.
  move: (A *m N *m A) (A *m N *m B) (B *m N *m A) (B *m N *m B) => a1 a2 b1 b2.
  by rewrite scalerBr scaleN1r opprB addrACA.
have reE (M N : 'M[C]_2) : real_mx M -> real_mx N -> map_mx (fun z => 'Re z) (M + ep *: N) = M.
  move=> rM rN; apply/matrixP=> i j; rewrite !mxE raddfD /= (Creal_ReP _ (rM i j)).
  have -> : 'Re (ep * N i j) = 0; last by rewrite addr0.
  have := Re_conj (ep * N i j); rewrite rmorphM epc (conj_Creal (rN i j)) mulNr raddfN /= => /eqP.
  by rewrite eqNr => /eqP.
have [AB BA] := w_zero.
have R0 : map_mx (fun z => 'Re z) (T *m 1%:M *m map_mx conjC T) = 1%:M.
  rewrite sand !mulmx1 w_one AB BA subr0 reE // => i j; rewrite mxE ?rpred0 //.
  by rewrite rpredMn ?rpred1.
have rP : real_mx P.
  by apply: ord2P; apply: ord2P; rewrite !mxE /= ?mulrN ?rpredN rpredM ?rpredB ?rpredM ?w_rp ?w_rq.
have R4 : map_mx (fun z => 'Re z) (T *m d4_s p q *m map_mx conjC T) = P.
  rewrite sand w_diag w_off reE //.
  by apply: ord2P; apply: ord2P; rewrite !mxE /= ?mulrN ?rpredN rpredM ?rpred0 ?rpred1 // rpredD // rpredM ?w_rp ?w_rq.
have -> : d4_mul 4 4 = 0%N by [].
rewrite (nth_map 0) // (nth_map 0) // -/T /= R0 R4 => h.
have := congr1 (fun M : 'M[C]_2 => M ord0 ord0) h.
rewrite /P -scalemxAl -scalemxAr scalerA mx2M mx2Z !mxE /= mulr1n => {}h.
have pp : (p * p - q * q) * (p * p - q * q) = 1.
  by rewrite -[RHS]h mulrNN w_pq mulr1.
have : (p * q) * (p * q) = 0.
  have four : (4%:R : C) != 0 by rewrite pnatr_eq0.
  apply: (mulfI four); rewrite mulr0.
  transitivity ((p * p + q * q) * (p * p + q * q) - (p * p - q * q) * (p * p - q * q)).
    by rewrite !mulrS mulr0n; to_field C; ring.
  by rewrite w_pq pp mulr1 subrr.
by move/eqP; rewrite !mulf_eq0 (negbTE p0) (negbTE q0).
Qed.
End Fail.
End Witness.

(** An eigenvector routine that returns the columns (c, s), (-s, c) whenever they are
    eigenvectors. *)
Section Eig.
Variable C : numClosedFieldType.
Lemma char_poly_sim n (P Q D : 'M[C]_n) : P *m Q = 1%:M -> char_poly (P *m D *m Q) = char_poly D.
Proof.
move=> PQ; rewrite /char_poly /char_poly_mx.
have -> : 'X%:M - map_mx polyC (P *m D *m Q) = map_mx polyC P *m ('X%:M - map_mx polyC D) *m map_mx polyC Q.
  rewrite mulmxBr mulmxBl !map_mxM; congr (_ - _).
  by rewrite mul_mx_scalar -scalemxAl -map_mxM PQ map_mx1 -mul_mx_scalar mul1mx.
rewrite !det_mulmx mulrAC -det_mulmx -map_mxM PQ map_mx1 det1 mul1r //.
Qed.
Variables (c s : C) (rc : c \is Num.real) (rs : s \is Num.real).
Hypothesis cs1 : c * c + s * s = 1.
Local Notation V := (mx2 c (- s) s c).
Definition w_eig n : 'M[C]_n -> seq C * 'M[C]_n :=
  match n with
  | 2%N => fun M => let Dg := V^T *m M *m V in
      if is_diag_mx Dg then ([:: Dg ord0 ord0; Dg (lift ord0 ord0) (lift ord0 ord0)], V) else ex_eig M
  | _ => fun M => ex_eig M
  end.
Lemma w_eig_ok n (M : 'M[C]_n) : let: (vals, vecs) := w_eig M in
  [/\ size vals = n, char_poly M = \prod_(x <- vals) ('X - x%:P) &
      forall i : 'I_n, [/\ col i vecs != 0, M *m col i vecs = nth 0 vals i *: col i vecs &
        real_mx M -> nth 0 vals i \is Num.real -> real_mx (col i vecs)]].
Proof.
case: n M => [|[|[|n]]] M; try exact: ex_eig_ok.
rewrite /w_eig; set Dg := V^T *m M *m V; case: ifP => dg; last exact: ex_eig_ok.
have VV := V_orth cs1; have VV' : V *m V^T = 1%:M by exact: mulmx1C.
have ME : M = V *m Dg *m V^T by rewrite /Dg !mulmxA VV' mul1mx -mulmxA VV' mulmx1.
have MV : M *m V = V *m Dg by rewrite {1}ME -mulmxA VV mulmx1.
clearbody Dg; have off := elimT is_diag_mxP dg.
have DE : Dg = mx2 (Dg ord0 ord0) 0 0 (Dg (lift ord0 ord0) (lift ord0 ord0)).
  by apply: mx2P; split; rewrite !mxE //=; apply: off.
split=> //.
- rewrite ME char_poly_sim // char_poly_trig ?is_diag_mx_is_trig //.
  by rewrite !big_cons big_nil !big_ord_recl big_ord0.
- move=> i; split.
  + apply/eqP => z; have := congr1 (fun W : 'M[C]_2 => W i i) VV; rewrite mxE big1 => [|a _].
      by rewrite mxE eqxx => /eqP; rewrite eq_sym oner_eq0.
    by have /matrixP/(_ a 0) := z; rewrite !mxE => ->; rewrite mulr0.
  + rewrite {1}colE mulmxA MV -colE {1}DE; move: i; apply: ord2P; apply/matrixP=> a b; move: a; apply: ord2P;
      rewrite !mxE !big_ord_recl big_ord0 !mxE /= ?mulr0 ?addr0 ?add0r mulrC //.
  + by move=> _ _ a b; rewrite !mxE; case: ifP => _; case: ifP => _; rewrite ?rpredN.
Qed.
End Eig.
