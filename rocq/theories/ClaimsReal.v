(** Property theorems C30, C31, C32: real representations (irreps.py:104-140, 204-240,
    562-634). *)
From Coq Require Import QArith ZArith Qabs List Lia String.
From mathcomp Require Import all_ssreflect all_algebra.
From mathcomp Require Import algC.
From Verif Require Import Py Mat3 MatQ GroupModel GroupSpec GroupProofs GroupProofs2 PointGroupModel PointGroupData RepSpec RepModel
  IndexRepSpec IndexGroup ChainModel SmallModel SmallSpec SmallTheory SmallExamples SpinorSpec SpinorExamples Mx2 RealSpec RealTheory
  PairTheory RealOutcome RealType RealWitness RealDrop CExpSpec RepTheory ExpInstance ClaimsChain ClaimsRandom ClaimsSmall.
Import Order.TTheory GRing.Theory Num.Theory.
Set Implicit Arguments.
Unset Strict Implicit.
Unset Printing Implicit Defensive.
Local Open Scope ring_scope.
Delimit Scope Z_scope with coqZ.

(* ---------- C30 ---------- *)
(** Indicator 0 or -1: the 2d-dimensional real matrices [[Re D, Im D], [-Im D, Re D]].  One
    unitary matrix, the same for all D, turns them into D + conj(D).  If D is a unitary
    projective representation, they are orthogonal and multiply as D does, each factor acting
    as the rotation [[x, y], [-y, x]]. *)
Theorem C30_real_blocks : forall (C : numClosedFieldType) (E : numpy C) d,
  exists W : 'M[C]_(d + d), W *m adj W = 1%:M /\
  forall (ms : seq 'M[C]_d) v atol max_num, v = 0 \/ v = -1 ->
  exists Rs : seq 'M[C]_(d + d), [/\ get_physically_irrep E (Arr ms) v atol max_num = COk (Arr Rs), size Rs = size ms,
    forall g, (g < size ms)%N -> let D := nth 0 ms g in let R := nth 0 Rs g in
      [/\ real_mx R, R *m W = W *m with_conjugate D,
          (forall i j, R (lshift d i) (lshift d j) = 'Re (D i j) /\ R (rshift d i) (rshift d j) = 'Re (D i j)) &
          forall i j, R (lshift d i) (rshift d j) = 'Im (D i j) /\ R (rshift d i) (lshift d j) = - 'Im (D i j)] &
    forall n mul e mu, n = size ms -> group_law n mul e -> iprojrep n mul e mu (nth 0 ms) ->
      [/\ nth 0 Rs e = 1%:M,
          forall i j, (i < n)%N -> (j < n)%N -> nth 0 Rs i *m nth 0 Rs j = turn d (mu i j) *m nth 0 Rs (mul i j) &
          iunitary n (nth 0 ms) -> forall i, (i < n)%N -> orthogonal_mx (nth 0 Rs i)]].
Proof.
move=> C E d; exists (mixer C d); split; first exact: mixer_unitary.
move=> ms v atol max_num hv; exists [seq real_blocks M | M <- ms].
have ge g : (g < size ms)%N -> nth 0 [seq real_blocks M | M <- ms] g = real_blocks (nth 0 ms g).
  by move=> hg; rewrite (nth_map 0).
split.
- by rewrite /get_physically_irrep; case: hv => ->.
- by rewrite size_map.
- move=> g hg D R; rewrite /R ge //; split; [exact: real_blocks_real|exact: real_blocks_mixer|move=> i j|move=> i j];
    by rewrite ?block_mxEul ?block_mxEdr ?block_mxEur ?block_mxEdl !mxE.
move=> n mul e mu -> G [h1 h2].
have he : (e < size ms)%N by exact/ssrnat.ltP/(gl_e _ _ _ G).
split=> [|i j hi hj|u i hi].
- by rewrite ge // h1 real_blocks1.
- have hm : (mul i j < size ms)%N by apply/ssrnat.ltP; apply: (gl_closed _ _ _ G); apply/ssrnat.ltP.
  by rewrite !ge // -real_blocksM h2 // real_blocksZ.
- by rewrite ge //; apply: real_blocks_orth; exact: u.
Qed.
Print Assumptions C30_real_blocks.

(** They are irreducible over the real numbers when the indicator has its meaning. *)
Theorem C30_real_irreducible : forall (C : numClosedFieldType) (E : numpy C) d (ms : seq 'M[C]_d) v atol max_num,
  iirreducible (size ms) (nth 0 ms) -> iunitary (size ms) (nth 0 ms) -> fs_meaning (size ms) (nth 0 ms) v -> v <> 1 ->
  exists Rs : seq 'M[C]_(d + d), get_physically_irrep E (Arr ms) v atol max_num = COk (Arr Rs) /\
    real_irreducible (size ms) (nth 0 Rs).
Proof.
move=> C E d ms v atol max_num irr u mean v1; exists [seq real_blocks M | M <- ms]; split.
  by rewrite /get_physically_irrep; case: mean v1 => [[-> _] //|[-> _]|[-> _]].
have [h1 h2] := real_blocks_irreducible irr (not_real_fs irr u mean v1); split=> // m B rB lB m0 inv.
apply: (h2 m B rB lB m0) => g hg; have [Y hY] := inv g hg; exists Y; by rewrite -hY (nth_map 0).
Qed.
Print Assumptions C30_real_irreducible.

(** For an indicator other than 1, 0 and -1 the result is not defined. *)
Theorem C30_other_indicator : forall (C : numClosedFieldType) (E : numpy C) A v atol max_num,
  v <> 1 -> v <> 0 -> v <> -1 -> get_physically_irrep E A v atol max_num = CExn UnboundLocalError.
Proof.
move=> C E A v atol max_num /eqP h1 /eqP h2 /eqP h3.
by rewrite /get_physically_irrep (negbTE h1) (negbTE h2) (negbTE h3).
Qed.
Print Assumptions C30_other_indicator.

(* ---------- C31 ---------- *)
(** Indicator 1, for an irreducible unitary representation of real type with real factors: U is
    the intertwiner found, S the matrix of the normalised real or imaginary parts of its
    eigenvectors, assumed to be orthonormal eigenvectors, and T = S^T sqrt(Omega) S.  The
    result is T D T^dagger, hence a real orthogonal representation with the same factors
    equivalent to D, if and only if T^2 is a multiple of conj(U). *)
Theorem C31_criterion : forall (C : numClosedFieldType) (E : numpy C) mul e mu d (ms : seq 'M[C]_d) atol max_num,
  let n := size ms in let D := nth 0 ms in
  (forall z m, (0 < m)%N -> np_powinv E z m ^+ m = z) -> (forall z, np_nroot E z 2 ^+ 2 = z) -> 0 <= atol ->
  group_law n mul e -> ifactor_system n mul e mu -> (forall i j, (i < n)%N -> (j < n)%N -> mu i j \is Num.real) ->
  iprojrep n mul e mu D -> iunitary n D -> iirreducible n D -> fs_meaning n D 1 ->
  (get_physically_irrep E (Arr ms) 1 atol max_num = CWarn /\
   get_intertwiner_mats (np_powinv E) (np_rnd E) atol max_num ms [seq map_mx conjC M | M <- ms] = None) \/
  exists U Rs, let S := eigenbasis E atol U in let T := sqrt_intertwiner E atol U in
  [/\ get_intertwiner_mats (np_powinv E) (np_rnd E) atol max_num ms [seq map_mx conjC M | M <- ms] = Some U,
      [/\ forall g, (g < n)%N -> D g *m U = U *m map_mx conjC (D g), U *m adj U = 1%:M & U^T = U],
      get_physically_irrep E (Arr ms) 1 atol max_num = COk (Arr Rs) /\ size Rs = n &
      U *m S = S *m diag_mx (\row_i nth 0 (np_eig E U).1 i) -> S^T *m S = 1%:M ->
      ((forall g, (g < n)%N -> nth 0 Rs g = T *m D g *m adj T) <-> exists c, T *m T = c *: map_mx conjC U) /\
      ((exists c, T *m T = c *: map_mx conjC U) ->
       [/\ iprojrep n mul e mu (nth 0 Rs), forall g, (g < n)%N -> orthogonal_mx (nth 0 Rs g) & iequivalent n (nth 0 Rs) D])].
Proof.
move=> C E mul e mu d ms atol max_num n D cp nr a0 G fs mr pD uD irr mean.
rewrite /get_physically_irrep eqxx /=.
case found: (get_intertwiner_mats _ _ _ _ _ _) => [U|]; [right|by left].
have [hU UU dU] := found_inter G fs mr pD uD irr cp a0 (erefl : size ms = n) (erefl : nth 0 ms = D) found.
have sU := inter_sym irr mean hU.
exists U, [seq map_mx (fun z => 'Re z) (sqrt_intertwiner E atol U *m M *m map_mx conjC (sqrt_intertwiner E atol U)) | M <- ms].
pose S := eigenbasis E atol U; pose T := sqrt_intertwiner E atol U; cbv zeta; rewrite -/S -/T.
split=> //; first by rewrite size_map.
move=> valid orth.
have TT : T *m adj T = 1%:M := root_unitary nr valid UU orth; have sT : T^T = T := sqrt_intertwiner_sym E atol U.
have crit := criterion irr mean hU UU sT TT.
have ge g : (g < n)%N -> nth 0 [seq map_mx (fun z => 'Re z) (T *m M *m map_mx conjC T) | M <- ms] g = map_mx (fun z => 'Re z) (T *m D g *m map_mx conjC T).
  by move=> hg; rewrite (nth_map 0).
have crit' : (forall g, (g < n)%N -> nth 0 [seq map_mx (fun z => 'Re z) (T *m M *m map_mx conjC T) | M <- ms] g = T *m D g *m adj T) <->
    exists c, T *m T = c *: map_mx conjC U.
  split=> h; [apply/crit => g hg|have {}h := iffRL crit h; move=> g hg]; by rewrite -?ge ?h // ge // h.
split=> // hc; have h := iffRL crit' hc; clear crit crit' sT; clearbody T.
have TT' : adj T *m T = 1%:M by exact: mulmx1C.
have he : (e < n)%N by exact/ssrnat.ltP/(gl_e _ _ _ G).
split.
- split=> [|i j hi hj]; first by rewrite h // pD.1 mulmx1.
  have hm : (mul i j < n)%N by apply/ssrnat.ltP; apply: (gl_closed _ _ _ G); apply/ssrnat.ltP.
  rewrite !h // !mulmxA -[_ *m adj T *m T]mulmxA TT' mulmx1 -[T *m D i *m D j]mulmxA pD.2 // -scalemxAr -scalemxAl //.
- move=> g hg; have rR : real_mx (nth 0 [seq map_mx (fun z => 'Re z) (T *m M *m map_mx conjC T) | M <- ms] g).
    by rewrite ge //; exact: real_rex.
  split=> //; rewrite -[in X in _ *m X = _](iffLR (real_cj _) rR) h //.
  rewrite -/(adj (T *m D g *m adj T)) !adjM adjK !mulmxA -[_ *m adj T *m T]mulmxA TT' mulmx1.
  by rewrite -[_ *m D g *m _]mulmxA uD // mulmx1.
- by exists T, (adj T); split=> // g hg; rewrite h // -mulmxA TT' mulmx1.
Qed.
Print Assumptions C31_criterion.

(** In particular it is correct when S is symmetric and U^2 is a scalar. *)
Theorem C31_symmetric_eigenvectors : forall (C : numClosedFieldType) (E : numpy C) atol d (U : 'M[C]_d) c,
  let S := eigenbasis E atol U in let T := sqrt_intertwiner E atol U in
  (forall z, np_nroot E z 2 ^+ 2 = z) -> U *m adj U = 1%:M -> U^T = U ->
  U *m S = S *m diag_mx (\row_i nth 0 (np_eig E U).1 i) -> S^T *m S = 1%:M ->
  S^T = S -> U *m U = c%:M -> T *m T = c *: map_mx conjC U.
Proof.
move=> C E atol d U c S T nr UU sU valid orth sS U2; rewrite (root_square nr valid orth sS).
have UU' : map_mx conjC U *m U = 1%:M by move: (mulmx1C UU); rewrite /adj map_trmx sU.
by rewrite -[LHS]mul1mx -UU' -mulmxA U2 mul_mx_scalar.
Qed.
Print Assumptions C31_symmetric_eigenvectors.

(** It is not a representation for the two-dimensional irrep of the group 422 in the basis
    rotated by an angle t with cos 2t, sin 2t different from 0, if the eigenvectors returned
    for the intertwiner are the columns (c, s), (-s, c), c = cos t, s = sin t: the square of
    the matrix of the two-fold rotation s is not the matrix of the identity. *)
Theorem C31_rotated_irrep_refuted : forall (C : numClosedFieldType) (E : numpy C) (c s atol : C) max_num (U : 'M[C]_2),
  c \is Num.real -> s \is Num.real -> c * c + s * s = 1 ->
  let p := c * c - s * s in let q := c * s + c * s in p != 0 -> q != 0 ->
  let D := d4_rotated p q in let V := mx2 c (- s) s c in
  (forall z m, (0 < m)%N -> np_powinv E z m ^+ m = z) -> (forall z m, (0 < m)%N -> np_nroot E z m ^+ m = z) ->
  0 <= atol -> atol < `|c| ->
  get_intertwiner_mats (np_powinv E) (np_rnd E) atol max_num (amats D) [seq map_mx conjC M | M <- amats D] = Some U ->
  (np_eig E U).2 = V -> U *m V = V *m diag_mx (\row_i nth 0 (np_eig E U).1 i) ->
  [/\ group_law 8 d4_mul 0, iprojrep 8 d4_mul 0 (fun _ _ => 1) (aget D), iunitary 8 (aget D), iirreducible 8 (aget D) &
      fs_meaning 8 (aget D) 1] /\
  exists Rs, get_physically_irrep E D 1 atol max_num = COk (@Arr C 2 Rs) /\
    size Rs = 8%N /\ nth 0 Rs 4 *m nth 0 Rs 4 <> nth 0 Rs (d4_mul 4 4).
Proof.
move=> C E c s atol max_num U rc rs cs1 p q p0 q0 D V cp nr a0 ac found vecs valid.
have pq := w_pq cs1; have rp := w_rp rc rs; have rq := w_rq rc rs.
split; last by apply: (w_fails rc rs cs1 p0 q0 cp nr a0 ac found vecs valid).
by split; [exact: d4_group|exact: d4_rep|exact: d4_unitary|exact: d4_irreducible|exact: d4_real_type].
Qed.
Print Assumptions C31_rotated_irrep_refuted.

(** NumPy with rounding to the nearest integer, a choice of random matrices and eigenvectors,
    and an answer of spglib. *)
Definition real_numpy (rnd : nat -> forall d, 'M[algCF]_d) (eig : forall n, 'M[algCF]_n -> seq algCF * 'M[algCF]_n)
    (pg : list mat -> string * qmat) : numpy algCF :=
  {| np_around := fun z => (np_int ex_numpy z)%:~R; np_powinv := np_powinv ex_numpy; np_nroot := np_nroot ex_numpy; np_rnd := rnd;
     np_exp := np_exp ex_numpy; np_eigh := np_eigh ex_numpy; np_qr := np_qr ex_numpy; np_hrnd := np_hrnd ex_numpy;
     np_key_le := np_key_le ex_numpy; np_int := np_int ex_numpy; np_eig := eig; spglib_pointgroup := pg |}.
Lemma real_around rnd eig pg : let E := real_numpy rnd eig pg in
  forall (z : algCF) (k : nat), `|z - k%:R| < 2%:R^-1 -> np_around E z = k%:R.
Proof.
move=> E z k h; have [_ _ no] := ex_numpy_ok; change (np_around E z) with ((np_int ex_numpy z)%:~R : algCF).
rewrite (no z (Posz k)) ?pmulrn //; apply: le_lt_trans h.
have -> : 'Re z - (Posz k)%:~R = 'Re (z - k%:R) by rewrite raddfB /= (Creal_ReP k%:R (realn _ _)) pmulrn.
exact: (leif_normC_Re_Creal _).1.
Qed.
Lemma real_numpy_ok rnd eig pg : numpy_ok (real_numpy rnd eig pg) (inject_Z Z0) (inject_Z Z0).
Proof.
have [[h1 h2 h3 h4 h5] [g1 g2 g3 g4] no] := ex_numpy_ok.
have ar (k : nat) : np_around (real_numpy rnd eig pg) k%:R = k%:R.
  by apply: real_around; rewrite subrr normr0 invr_gt0 ltr0n.
by split.
Qed.

(** NumPy and an eigenvector routine within their specifications for which the real form of a
    representation of real type is not a representation. *)
Definition w_c : algCF := 3%:R / 5%:R.
Definition w_s : algCF := 4%:R / 5%:R.
Definition w_p : algCF := w_c * w_c - w_s * w_s.
Definition w_q : algCF := w_c * w_s + w_c * w_s.
Definition w_rnd (t d : nat) : 'M[algCF]_d := if d is 2%N then d4_s w_p w_q else 1%:M.
Definition w_numpy : numpy algCF := real_numpy w_rnd (w_eig w_c w_s) (fun _ => ("422"%string, qid)).
Lemma w_facts : [/\ w_c \is Num.real, w_s \is Num.real, w_c * w_c + w_s * w_s = 1, w_p != 0 & w_q != 0].
Proof.
have f5 : (5%:R : algCF) != 0 by rewrite pnatr_eq0.
have rn (a b : nat) : (a%:R / b%:R : algCF) \is Num.real by rewrite rpredM ?rpredV ?realn.
split; [exact: rn|exact: rn| | |].
- rewrite /w_c /w_s !mulf_div -mulrDl -!natrM -natrD divff // pnatr_eq0 //.
- rewrite /w_p /w_c /w_s !mulf_div -mulrBl mulf_neq0 //; last by rewrite invr_eq0 -natrM pnatr_eq0.
  by rewrite -!natrM subr_eq0 eqr_nat.
- rewrite /w_q /w_c /w_s !mulf_div -mulrDl mulf_neq0 //; last by rewrite invr_eq0 -natrM pnatr_eq0.
  by rewrite -!natrM -natrD pnatr_eq0.
Qed.
Theorem C31_refuted : exists (E : numpy algCF) (A : arr algCF) (Rs : seq 'M[algCF]_2) mul,
  [/\ numpy_ok E (inject_Z Z0) (inject_Z Z0), eig_ok E, group_law 8 mul 0 &
   [/\ iprojrep 8 mul 0 (fun _ _ => 1) (aget A), iunitary 8 (aget A), iirreducible 8 (aget A) & fs_meaning 8 (aget A) 1]] /\
  [/\ get_physically_irrep E A 1 0 1 = COk (Arr Rs), size Rs = 8%N &
      ~ iprojrep 8 mul 0 (fun _ _ => 1) (nth 0 Rs)].
Proof.
have [rc rs cs1 p0 q0] := w_facts; have pq := w_pq cs1; rewrite -/w_p -/w_q in pq.
have rp : w_p \is Num.real := w_rp rc rs; have rq : w_q \is Num.real := w_rq rc rs.
have NO := real_numpy_ok w_rnd (w_eig w_c w_s) (fun _ => ("422"%string, qid)).
have cp := or_cpowinv (no_oracles NO); have nr := or_nroot (no_oracles NO).
pose D := d4_rotated w_p w_q.
have sumE : intertwiner_sum (amats D) [seq map_mx conjC M | M <- amats D] (w_rnd 0 2) = 8%:R *: d4_s w_p w_q.
  have term g : (g < 8)%N -> aget D g *m d4_s w_p w_q *m adj (map_mx conjC (aget D g)) = d4_s w_p w_q.
    move=> hg; rewrite d4_inter // -mulmxA.
    have -> : map_mx conjC (aget D g) *m adj (map_mx conjC (aget D g)) = 1%:M; last by rewrite mulmx1.
    exact: (conj_iunitary (d4_unitary rp rq pq)).
  rewrite /intertwiner_sum (big_nth (0, 0)) big_mkord.
  have sz : size (zip (amats D) [seq map_mx conjC M | M <- amats D]) = 8%N by [].
  rewrite (eq_bigr (fun _ => d4_s w_p w_q)) => [|g _]; last first.
    have hg : (val g < 8)%N by move: (ltn_ord g); rewrite [X in (_ < X)%N]sz.
    by rewrite nth_zip ?size_map // (nth_map 0) //; exact: term.
  by rewrite sumr_const card_ord sz scaler_nat.
have e8 : (8%:R : algCF) != 0 by rewrite pnatr_eq0.
have found : exists a, get_intertwiner_mats (np_powinv w_numpy) (np_rnd w_numpy) 0 1 (amats D) [seq map_mx conjC M | M <- amats D] = Some (a *: d4_s w_p w_q).
  rewrite /get_intertwiner_mats /intertwiner_search.
  change (np_rnd w_numpy 0 (adim D)) with (w_rnd 0 2); rewrite sumE.
  case: ifP => [/forallP /(_ ord0) /forallP /(_ ord0)|_]; last by eexists; rewrite scalerA.
  by rewrite !mxE /= normr_le0 mulf_eq0 (negbTE e8) (negbTE p0).
have {found} [a found] := found.
set U := a *: d4_s w_p w_q in found.
have UV : U *m mx2 w_c (- w_s) w_s w_c = mx2 w_c (- w_s) w_s w_c *m (a *: mx2 1 0 0 (-1)).
  by rewrite /U -scalemxAl (sV cs1) scalemxAr.
have VU : (mx2 w_c (- w_s) w_s w_c)^T *m U *m mx2 w_c (- w_s) w_s w_c = a *: mx2 1 0 0 (-1).
  by rewrite -mulmxA UV mulmxA (V_orth cs1) mul1mx.
have eigE : np_eig w_numpy U = ([:: a; - a], mx2 w_c (- w_s) w_s w_c).
  rewrite /= VU; have -> : is_diag_mx (a *: mx2 1 0 0 (-1)).
    by apply/is_diag_mxP; apply: ord2P; apply: ord2P => //= _; rewrite !mxE /= mulr0.
  by rewrite !mxE /= mulr1 mulrN1.
have valid : U *m mx2 w_c (- w_s) w_s w_c = mx2 w_c (- w_s) w_s w_c *m diag_mx (\row_i nth 0 (np_eig w_numpy U).1 i).
  rewrite UV eigE; congr (_ *m _); apply: mx2P; rewrite !mxE /= ?mulr0n ?mulr1n ?mulr0 ?mulr1 ?mulrN1 //.
have c0 : 0 < `|w_c| by rewrite normr_gt0 mulf_neq0 ?invr_eq0 ?pnatr_eq0.
have [[G h1 h2 h3 h4] [Rs [R1 [R2 R3]]]] := C31_rotated_irrep_refuted rc rs cs1 p0 q0 cp nr (lexx 0) c0 found (congr1 snd eigE) valid.
exists w_numpy, D, Rs, d4_mul; split; last by split=> // -[_ /(_ 4%N 4%N isT isT)]; rewrite scale1r.
by split=> //; move=> n M; exact: w_eig_ok.
Qed.
Print Assumptions C31_refuted.

(* ---------- C32 ---------- *)
(** Every index occurs exactly once in the list of pairs, whatever the characters are. *)
Theorem C32_each_once : forall (C : numClosedFieldType) (E : numpy C) (irreps : seq (arr C)),
  let ps := conjugated_pairs E irreps in
  perm_eq (members ps) (iota 0 (size irreps)) /\ forall p, p \in ps -> (p.1 <= p.2 < size irreps)%N.
Proof.
move=> C E L ps.
have sc : size [seq get_character A | A <- L] = size L by rewrite size_map.
have sv : size (nseq (size L) false) = size [seq get_character A | A <- L] by rewrite size_nseq sc.
have [p1 p2 p3] := @pair_loop_members C E [seq get_character A | A <- L] (size L) 0 (nseq (size L) false) (esym sc) sv (fun i h => False_ind _ (elimF idP (ltn0 i) h)).
rewrite -/(conjugated_pairs E L) -/ps in p1 p2 p3; split.
  apply: uniq_perm => //; first exact: iota_uniq.
  by move=> i; rewrite p2 sc mem_iota /= add0n nth_nseq; case: ltnP.
move=> [i j] h; rewrite (p3 _ h) /=.
have : j \in members ps.
  apply/flattenP; eexists; first by apply/mapP; exists (i, j).
  by rewrite /=; case: (i =P j) => [->|_]; rewrite !inE ?eqxx ?orbT.
by rewrite p2 sc => /andP [].
Qed.
Print Assumptions C32_each_once.

(** If the arrays are close to a complete list of irreducible representations with real
    factors, (i, j) with i <= j is a pair exactly when the conjugate of the i-th one is
    equivalent to the j-th one. *)
Theorem C32_pairs : forall (C : numClosedFieldType) (E : numpy C) eps rots mul e mu (L L' : seq (arr C)),
  0 <= eps -> (forall (z : C) (k : nat), `|z - k%:R| < 2%:R^-1 -> np_around E z = k%:R) ->
  multiplication rots mul e ->
  (forall i j, (i < size rots)%N -> (j < size rots)%N -> mu i j \is Num.real) ->
  (size rots * size rots)%:R * (2%:R * eps + eps ^+ 2) < 2%:R^-1 ->
  complete_list rots mul e mu L' -> near_list eps L L' ->
  forall i j, (i, j) \in conjugated_pairs E L <-> [/\ (i <= j)%N, (j < size L)%N &
    iequivalent (size rots) (fun g => map_mx conjC (aget (arr_nth L' i) g)) (aget (arr_nth L' j))].
Proof.
move=> C E eps rots mul e mu L L' eps0 ar M mr small cl nr i j.
have pE := conjugated_pairsE eps0 ar M mr small cl nr.
have [_ rng] := C32_each_once E L; have sL : size L = size L' := nr.1; split.
  move=> h; have /= /andP [le lt] := rng _ h; split=> //.
  by apply/(pE i j); rewrite // -sL // (leq_ltn_trans le).
by move=> [le lt eq]; apply/(pE i j) => //; rewrite -sL // (leq_ltn_trans le).
Qed.
Print Assumptions C32_pairs.

(** enumerate_unitary_irreps in real mode, for real factors: apart from the reported failures,
    there is one real representation for each pair; that of a representation with indicator
    different from 1 is, up to atol, the 2d-dimensional one of C30. *)
Theorem C32_real_mode : forall (C : numClosedFieldType) (E : numpy C) rtol atol rots mul e (mu : nat -> nat -> C) method max_num,
  numpy_ok E rtol atol -> Qle atol (Qmake 1 8) ->
  (forall (z : C) (k : nat), `|z - k%:R| < 2%:R^-1 -> np_around E z = k%:R) ->
  let eps := qC C atol in
  (size rots * size rots)%:R * (2%:R * eps + eps ^+ 2) < 2%:R^-1 ->
  lists_group rots -> multiplication rots mul e -> ifactor_system (size rots) mul e mu ->
  (forall i j, (i < size rots)%N -> (j < size rots)%N -> mu i j \is Num.real) ->
  method_ok E rots method ->
  let f real := enumerate_unitary_irreps E rots mu real method rtol atol max_num in
  [\/ f true = CWarn /\ method = "Neto"%string /\ unlucky_samples (size rots) (np_rnd E) eps max_num,
      f true = COk ([::], [::], false) /\ method = "random"%string |
      exists L inds L' ps, [/\ f false = COk (L, inds, true), complete_list rots mul e mu L', near_list eps L L',
        perm_eq (members ps) (iota 0 (size L)) &
        (forall i j, (i, j) \in ps <-> [/\ (i <= j)%N, (j < size L)%N &
            iequivalent (size rots) (fun g => map_mx conjC (aget (arr_nth L' i) g)) (aget (arr_nth L' j))]) /\
        ((f true = CWarn /\ exists2 i, (i < size L)%N & nth 0 inds i = 1) \/
         exists Rs vs, [/\ f true = COk (Rs, vs, true), size Rs = size ps, size vs = size ps &
           forall k, (k < size ps)%N -> let i := (nth (0, 0)%N ps k).1 in
             [/\ (i < size L)%N, nth 0 vs k = nth 0 inds i,
                 fs_meaning (size rots) (aget (arr_nth L' i)) (nth 0 vs k) &
                 real_form atol (arr_nth L i) (nth 0 vs k) (arr_nth Rs k)]])]].
Proof.
move=> C E rtol atol rots mul e mu method max_num NO A8 ar eps small LG M fs mr mok.
exact: (real_mode NO A8 ar max_num small LG M fs mr mok).
Qed.
Print Assumptions C32_real_mode.

(** For a k-point with 2k not integral the real representations D + conj(D) of the space group
    made from two inequivalent small representations are inequivalent: none may be dropped. *)
Theorem C32_distinct_forms : forall (C : numClosedFieldType) (cexp : Q -> C) n e k d1 d2 (D1 : nat -> 'M[C]_d1) (D2 : nat -> 'M[C]_d2),
  exp_spec cexp -> ~ vint (vadd k k) -> (e < n)%N -> D1 e = 1%:M -> D2 e = 1%:M ->
  same_physical n cexp k D1 D2 -> iequivalent n D1 D2.
Proof. by move=> C cexp n e k d1 d2 D1 D2 ce; exact: bloch_forms_differ ce _ _ _ _ _ _ _. Qed.
Print Assumptions C32_distinct_forms.

(** Yet for the space group P3 and k = (0, 0, w) real mode returns two representations although
    there are three pairwise inequivalent small representations. *)
Theorem C32_two_k_refuted : forall (C : numClosedFieldType) (E : numpy C) rtol atol w method max_num,
  numpy_ok E rtol atol -> Qle atol (Qmake 1 8) ->
  (forall (z : C) (k : nat), `|z - k%:R| < 2%:R^-1 -> np_around E z = k%:R) ->
  let eps := qC C atol in 9%:R * (2%:R * eps + eps ^+ 2) < 2%:R^-1 ->
  let k := Vec (inject_Z Z0) (inject_Z Z0) w in
  two_k_integral k = false -> method_ok E p3_rots method ->
  let f real := enumerate_small_representations E p3_rots p3_trans k real method rtol atol max_num in
  [\/ f true = CWarn /\ method = "Neto"%string /\ unlucky_samples 3 (np_rnd E) eps max_num,
      f true = COk ([::], [::], false) /\ method = "random"%string |
      exists L inds L' Rs, [/\ f false = COk (L, inds, true), complete_list p3_rots p3_mul 0 (fun _ _ => 1) L',
        near_list eps L L', f true = COk (Rs, [:: 0; 0], true) & [/\ size L = 3%N, size Rs = 2%N &
        forall i j, (i < 3)%N -> (j < 3)%N -> i <> j ->
          ~ same_physical 3 (np_exp E) k (aget (arr_nth L' i)) (aget (arr_nth L' j))]]].
Proof.
move=> C E rtol atol w method max_num NO A8 ar eps small k nk mok f.
have ce := or_cexp (no_oracles NO).
have small' : (size p3_rots * size p3_rots)%N%:R * (2%:R * qC C atol + qC C atol ^+ 2) < 2%:R^-1 by exact: small.
case: (symmorphic_real NO A8 ar max_num small' p3_group p3_multiplication mok nk) => [h|h|[L [inds [L' [ps [h1 cl nr pe [hp [Rs [h2 h3]]]]]]]]].
- exact: Or31. - exact: Or32.
have sL : size L = size L' := nr.1; rewrite sL in pe hp.
have [s3 s2] := p3_pairs ce cl pe hp.
apply: Or33; exists L, inds, L', Rs; rewrite s2 in h2 h3; split=> //; split=> //; first by rewrite sL.
move=> i j hi hj ij sp; rewrite -s3 in hi hj.
apply: (ci_inequivalent cl.2 hi hj ij); apply: (bloch_forms_differ ce (e := 0%N) _ _ _ _ sp) => //.
- move=> [i1 [i2 i3]]; move: nk; rewrite /two_k_integral /frac_near /vmap /vall /= => /negP; apply.
  have cl0 q : qint q -> close0 atol_default (q - inject_Z (rint q)).
    move=> [z hz]; apply/(close0_near atol_default q); exists z; rewrite hz.
    by rewrite /Qminus Qplus_opp_r.
  by rewrite !cl0.
- exact: (ci_rep cl.2 hi).1.
- exact: (ci_rep cl.2 hj).1.
Qed.
Print Assumptions C32_two_k_refuted.

(* ---------- the hypotheses are met ---------- *)
Section One.
Variables (C : numClosedFieldType) (cexp : Q -> C).
Hypothesis ce : exp_spec cexp.
(** The irrep g -> exp(2 pi i g/3) of the group of order three: indicator 0. *)
Example C30_hypotheses_met : let ms := [seq p3_irrep cexp 1 g | g <- iota 0 3] in
  [/\ group_law 3 p3_mul 0, iprojrep 3 p3_mul 0 (fun _ _ => 1) (nth 0 ms), iunitary 3 (nth 0 ms), iirreducible 3 (nth 0 ms) &
      fs_meaning 3 (nth 0 ms) 0].
Proof.
move=> ms.
have ge g : (g < 3)%N -> nth 0 ms g = p3_irrep cexp 1 g by case: g => [|[|[|//]]].
have [r1 r2] := p3_irrep_rep ce 1.
split.
- exact: (mult_group_law p3_group p3_multiplication).
- split=> [|i j hi hj]; first by rewrite ge // r1.
  by rewrite !ge // ?ltn_mod // r2.
- move=> i hi; rewrite ge // /p3_irrep /adj map_scalar_mx tr_scalar_mx -scalar_mxM /= -normCK normrX (ce_norm ce) !expr1n //.
- exact: irrep1.
- apply: Or33; split=> // X /(_ 1%N isT); rewrite ge // p3_irrep_conj // /p3_irrep mul_scalar_mx mul_mx_scalar muln1 expr1 => h.
  have w0 : cexp (Qmake 1 3) != 0 by rewrite -normr_eq0 (ce_norm ce) oner_eq0.
  have h2 : (cexp (Qmake 1 3) * (1 - cexp (Qmake 1 3))) *: X = 0 by rewrite mulrBr mulr1 scalerBl h subrr.
  apply/eqP; move/eqP: h2; rewrite scaler_eq0 mulf_eq0 (negbTE w0) /= subr_eq0 eq_sym (negbTE (w_neq1 ce)) //.
Qed.
End One.

(** The same irrep of 422 in the standard basis: the eigenvectors are the columns of the unit
    matrix, and the result is a real representation equivalent to the input. *)
Definition s_rnd (t d : nat) : 'M[algCF]_d := if d is 2%N then d4_s 1 0 else 1%:M.
Definition s_numpy : numpy algCF := real_numpy s_rnd (w_eig 1 0) (fun _ => ("422"%string, qid)).
Example C31_hypotheses_met : exists Rs : seq 'M[algCF]_2, let D := d4_rotated 1 0 in
  [/\ get_physically_irrep s_numpy D 1 0 1 = COk (Arr Rs), iprojrep 8 d4_mul 0 (fun _ _ => 1) (nth 0 Rs),
      forall g, (g < 8)%N -> orthogonal_mx (nth 0 Rs g) & iequivalent 8 (nth 0 Rs) (aget D)].
Proof.
have rc : (1 : algCF) \is Num.real := rpred1 _; have rs : (0 : algCF) \is Num.real := rpred0 _.
have cs1 : 1 * 1 + 0 * 0 = 1 :> algCF by rewrite mulr1 mulr0 addr0.
have NO := real_numpy_ok s_rnd (w_eig 1 0) (fun _ => ("422"%string, qid)).
have cp := or_cpowinv (no_oracles NO); have nr := or_nroot (no_oracles NO).
pose D := d4_rotated (1 : algCF) 0.
have irr := d4_irreducible rc rs cs1; have real_type := d4_real_type rc rs cs1.
have U0 := d4_unitary rc rs cs1; have rep := d4_rep cs1.
have sumE : intertwiner_sum (amats D) [seq map_mx conjC M | M <- amats D] (s_rnd 0 2) = 8%:R *: d4_s 1 0.
  have term g : (g < 8)%N -> aget D g *m d4_s 1 0 *m adj (map_mx conjC (aget D g)) = d4_s 1 0.
    move=> hg; rewrite d4_inter // -mulmxA.
    have -> : map_mx conjC (aget D g) *m adj (map_mx conjC (aget D g)) = 1%:M; last by rewrite mulmx1.
    exact: (conj_iunitary U0).
  rewrite /intertwiner_sum (big_nth (0, 0)) big_mkord.
  have sz : size (zip (amats D) [seq map_mx conjC M | M <- amats D]) = 8%N by [].
  rewrite (eq_bigr (fun _ => d4_s 1 0)) => [|g _]; last first.
    have hg : (val g < 8)%N by move: (ltn_ord g); rewrite [X in (_ < X)%N]sz.
    by rewrite nth_zip ?size_map // (nth_map 0) //; exact: term.
  by rewrite sumr_const card_ord sz scaler_nat.
have e8 : (8%:R : algCF) != 0 by rewrite pnatr_eq0.
have found : exists a, get_intertwiner_mats (np_powinv s_numpy) (np_rnd s_numpy) 0 1 (amats D) [seq map_mx conjC M | M <- amats D] = Some (a *: d4_s 1 0).
  rewrite /get_intertwiner_mats /intertwiner_search.
  change (np_rnd s_numpy 0 (adim D)) with (s_rnd 0 2); rewrite sumE.
  case: ifP => [/forallP /(_ ord0) /forallP /(_ ord0)|_]; last by eexists; rewrite scalerA.
  by rewrite !mxE /= normr_le0 mulf_eq0 (negbTE e8) oner_eq0.
have {found} [a found] := found.
have VE : mx2 1 (- 0) 0 1 = 1%:M :> 'M[algCF]_2 by rewrite oppr0 mx2_1.
have eigE : np_eig s_numpy (a *: d4_s 1 0) = ([:: a; - a], 1%:M).
  rewrite /= VE trmx1 mul1mx mulmx1; have -> : is_diag_mx (a *: d4_s 1 0).
    by apply/is_diag_mxP; apply: ord2P; apply: ord2P => //= _; rewrite !mxE /= mulr0.
  by rewrite !mxE /= mulr1 mulrN1.
have SE : eigenbasis s_numpy 0 (a *: d4_s 1 0) = 1%:M.
  rewrite -VE; apply: (@w_basis _ 1 0 rc rs cs1) => //; first by rewrite normr1 ltr01.
  by rewrite eigE VE.
have UE : (a *: d4_s 1 0) *m (a *: d4_s 1 0) = (a * a)%:M :> 'M[algCF]_2.
  by rewrite -scalemxAl -scalemxAr scalerA (m_ss cs1) scalemx1.
case: (@C31_criterion algCF s_numpy d4_mul 0 (fun _ _ => 1) 2%N (amats D) 0 1%N cp (fun z => nr z 2%N isT) (lexx 0) d4_group (d4_factor _) (fun _ _ _ _ => rc) rep U0 irr real_type) => [[_]|].
  by rewrite found.
case=> U [Rs [E1 [hU UU sU] [E2 _]]]; rewrite found in E1; case: E1 => E1; subst U.
rewrite SE => h; exists Rs.
have [//| |_ h2] := h; first by rewrite mulmx1 mul1mx eigE; apply: mx2P; rewrite !mxE /= ?mulr0n ?mulr1n ?mulr0 ?mulr1 ?mulrN1.
  by rewrite trmx1 mulmx1.
case: h2 => [|q1 q2 q3]; last by split.
exists (a * a); apply: C31_symmetric_eigenvectors => //; rewrite ?SE ?trmx1 ?mulmx1 ?mul1mx //.
- by move=> z; exact: nr.
- by rewrite eigE; apply: mx2P; rewrite !mxE /= ?mulr0n ?mulr1n ?mulr0 ?mulr1 ?mulrN1.
Qed.

(** P3 at k = (0, 0, 1/3): real mode returns two representations of three. *)
Definition p3_numpy : numpy algCF := real_numpy (fun _ d => 1%:M) (np_eig ex_numpy) (fun _ => ("3"%string, qid)).
Lemma p3_method : method_ok p3_numpy p3_rots "Neto".
Proof.
by left; split=> //; have [h2 [h1 [s [std [h3 [h4 h5]]]]]] := p3_setting; split=> //; exists s, std.
Qed.
Lemma p3_lucky : ~ unlucky_samples 3 (np_rnd p3_numpy) 0 1.
Proof.
case=> m [d [U [/andP [m0 m3] /andP [d0 d3] UU h]]].
have d1 : d = 1%N.
  case: d d0 d3 {U UU h} => [|[|d]] // _ h; exfalso.
  have h2 : (2 ^ 2 <= d.+2 ^ 2)%N by rewrite leq_sqr.
  by have := leq_trans h2 (leq_trans h m3).
subst d; have := h 0%N 0 0 isT; rewrite /= mul1mx /mxtrace big_ord1 !mxE norm_conjC -mulrA.
have -> : `|U 0 0| * `|U 0 0| = 1.
  by have /matrixP/(_ 0 0) := UU; rewrite !mxE big_ord1 !mxE -normCK expr2.
by rewrite mulr1 invr1 mulr1 lern0; case: m m0 {m3 d3 h}.
Qed.
Example C32_hypotheses_met : let k := Vec (inject_Z Z0) (inject_Z Z0) (Qmake 1 3) in
  let f real := enumerate_small_representations p3_numpy p3_rots p3_trans k real "Neto" (inject_Z Z0) (inject_Z Z0) 1 in
  lists_space_group p3_rots p3_trans /\ (forall r, In r p3_rots -> fixes_kpoint k r) /\
  exists L inds Rs, [/\ f false = COk (L, inds, true), f true = COk (Rs, [:: 0; 0], true), size L = 3%N & size Rs = 2%N].
Proof.
move=> k f; split.
  by apply: space_group_check_sound; vm_compute.
split; first by move=> r [<-|[<-|[<-|[]]]]; apply: vintb_sound; vm_compute.
have NO := real_numpy_ok (fun _ d => 1%:M) (np_eig ex_numpy) (fun _ => ("3"%string, qid)).
have small : 9%:R * (2%:R * qC algCF (inject_Z Z0) + qC algCF (inject_Z Z0) ^+ 2) < 2%:R^-1.
  by rewrite qC0 mulr0 expr0n add0r mulr0 invr_gt0 ltr0n.
have ar := @real_around (fun _ d => 1%:M) (np_eig ex_numpy) (fun _ => ("3"%string, qid)).
have A8 : Qle (inject_Z Z0) (Qmake 1 8) by [].
case: (@C32_two_k_refuted algCF p3_numpy _ _ (Qmake 1 3) "Neto"%string 1%N NO A8 ar small erefl p3_method) => [[_ [_ h]]|[_ //]|].
  by case: p3_lucky; rewrite -(qC0 algCF).
by case=> L [inds [L' [Rs [h1 _ _ h2 [h3 h4 _]]]]]; exists L, inds, Rs.
Qed.
Print Assumptions C31_hypotheses_met.
Print Assumptions C32_hypotheses_met.
