(** Property theorems C25, C26, C52 (random method, irreps.py:243-405). *)
From Coq Require Import Lia.
From mathcomp Require Import all_ssreflect all_algebra all_fingroup.
From Verif Require Import Py GroupModel GroupSpec GroupProofs RepSpec RepModel RepTheory IsoTheory
  IndexRepSpec IndexGroup MultTheory RepProofs RandomModel RandomTheory SpectralTheory Mx2 ClaimsChain ClaimsRep.
Import Order.TTheory GRing.Theory Num.Theory.
Set Implicit Arguments.
Unset Strict Implicit.
Unset Printing Implicit Defensive.
Local Open Scope ring_scope.

(** What is assumed of NumPy: around is exact on the natural numbers; eigh returns an
    orthonormal eigenbasis of a Hermitian matrix; qr, applied to orthonormal columns,
    returns orthonormal columns with the same span. *)
Record numerics (C : numClosedFieldType) (around : C -> C) (eigh : forall n, 'M[C]_n -> seq C * 'M[C]_n)
    (qr_q : forall n k, 'M[C]_(n, k) -> 'M[C]_(n, k)) (rtol : C) : Prop := {
  nu_around : forall k : nat, around k%:R = k%:R;
  nu_eigh : forall n (M : 'M[C]_n), adj M = M ->
    [/\ size (eigh n M).1 = n, adj (eigh n M).2 *m (eigh n M).2 = 1%:M &
        M *m (eigh n M).2 = (eigh n M).2 *m diag_mx (\row_j nth 0 (eigh n M).1 j)];
  nu_qr : forall n k (A : 'M[C]_(n, k)), adj A *m A = 1%:M ->
    adj (qr_q n k A) *m qr_q n k A = 1%:M /\ exists R, A = qr_q n k A *m R;
  nu_rtol : 0 <= rtol }.

Section Claims.
Variables (C : numClosedFieldType) (around : C -> C) (eigh : forall n, 'M[C]_n -> seq C * 'M[C]_n).
Variables (qr_q : forall n k, 'M[C]_(n, k) -> 'M[C]_(n, k)) (hrnd : nat -> forall n, 'M[C]_n).
Variables (key_le : C -> C -> bool) (rtol : C).
Local Notation run := (enumerate_unitary_irreps_from_regular_representation around eigh qr_q hrnd key_le rtol).
Local Notation decompose := (decompose_representation around eigh qr_q hrnd key_le rtol).
Local Notation arr0 := (Arr (adim := 0) [::]).
Hypothesis O : numerics around eigh qr_q rtol.
Variables (n : nat) (mul : nat -> nat -> nat) (e : nat) (mu : nat -> nat -> C).
Hypotheses (G : group_law n mul e) (fs : ifactor_system n mul e mu).

(* ---------- C25 ---------- *)
(** Whatever the random numbers, the eigenvectors and the tolerance: a list returned without
    the warning is the complete list of irreducible representations. *)
Theorem C25_random_sound_complete : forall (ms : seq 'M[C]_n) mx As,
  size ms = n -> iprojrep n mul e mu (nth 0 ms) -> iunitary n (nth 0 ms) ->
  run ms mx = Ret (As, true) ->
  (forall k, (k < size As)%N -> aorder (nth arr0 As k) = n) /\
  complete_irreps n mul e mu (size As) (fun k => aget (nth arr0 As k)).
Proof.
move=> ms mx As sz p u; rewrite /enumerate_unitary_irreps_from_regular_representation.
case: ifP => // look [].
case: (regular_loopP around eigh qr_q hrnd key_le rtol ms mx 0) => [[t [_ ok _ ->]]|[_ ->]] //.
move=> [<-]; have fA := @get_irreps_ok C n mul e G mu fs around rtol (nu_around O) (nu_rtol O) eigh (nu_eigh O) qr_q
  (nu_qr O) key_le n ms sz p u (averaged ms (hermite_random hrnd t n)).
have {}fA := fA (averaged_herm look (hermite_randomP hrnd t n)) (averaged_comm look G fs p u (hermite_random hrnd t n)).
split; first by move=> k /(fA.1 k) [].
exact: (found_complete G fs fA (eqP ok)).
Qed.

(** With the warning the list is empty; and the function raises exactly when some row has
    no or several non-zero entries, which never happens for a regular representation. *)
Theorem C25_random_outcomes : forall (ms : seq 'M[C]_n) mx,
  (forall As, run ms mx = Ret (As, false) -> As = [::]) /\
  ((exists x, run ms mx = Raise x) <->
   exists (m : nat) (i : 'I_n), (m < n)%N /\ ~ exists j, nth 0 ms m i j != 0 /\ forall k, k != j -> nth 0 ms m i k = 0) /\
  (forall t, (forall i j, tget t i j = mul i j) -> exists As b, run (regular_mats t mu n) mx = Ret (As, b)).
Proof.
move=> ms mx; split.
  move=> As; rewrite /enumerate_unitary_irreps_from_regular_representation; case: ifP => // _ [].
  by case: (regular_loopP around eigh qr_q hrnd key_le rtol ms mx 0) => [[t [_ _ _ ->]]|[_ ->]] // [].
split.
  rewrite /enumerate_unitary_irreps_from_regular_representation; case: ifP => look.
    split=> [[]//|[m [i [ml h]]]]; case: h.
    have /forallP /(_ i) := forallP look (Ordinal ml); case E: lookup => [j|//] _.
    by exists j; exact: lookupP E.
  split=> [_|_]; last by exists ValueError.
  move/negbT: look; rewrite negb_forall => /existsP [m]; rewrite negb_forall => /existsP [i].
  rewrite negbK => /eqP E; exists m, i; split=> // -[j [h1 h2]].
  by rewrite (lookup_uniq h1 h2) in E.
move=> t ht; rewrite /enumerate_unitary_irreps_from_regular_representation.
rewrite (_ : [forall m : 'I_n, forall i : 'I_n, _] = true); first by case: regular_loop => As b; exists As, b.
have G' : group_law n (tget t) e by split; case: G => *; rewrite ?ht; auto; do ?[setoid_rewrite ht]; auto.
apply/forallP => m; apply/forallP => i; have [m' [ml' h1 h2]] := mul_inv G' (ltn_ord m).
have jl := mul_lt G' ml' (ltn_ord i).
rewrite (@lookup_uniq _ _ _ m i (Ordinal jl)) //.
  rewrite -/(aget (Arr (regular_mats t mu n)) m) regE //= (mulA G') // h1 (mul1 G' (ltn_ord i)).1 eqxx.
  by rewrite -normr_eq0 (ifs_norm fs) ?oner_eq0.
move=> k kj; rewrite -/(aget (Arr (regular_mats t mu n)) m) regE //; case: eqP => // E; case/eqP: kj; apply: val_inj => /=.
by have := mulA G' ml' (ltn_ord m) (ltn_ord k); rewrite h2 (mul1 G' (ltn_ord k)).1 => <-; congr (tget t m' _).
Qed.

(** A trial whose averaged matrix separates the irreducible subspaces makes the function
    succeed. *)
Theorem C25_random_succeeds : forall t mx trial,
  (forall i j, tget t i j = mul i j) -> (10 ^ 8)%:R^-1 + rtol * n%:R < n%:R ->
  let ms := regular_mats t mu n in
  let H := hrnd trial n + adj (hrnd trial n) in
  (trial < mx)%N ->
  separating n rtol ms (\sum_(m < n) nth 0 ms m *m H^T *m adj (nth 0 ms m)) ->
  exists As, run ms mx = Ret (As, true).
Proof.
move=> t mx trial ht r1 ms H tm sep.
have [_ [raise /(_ t ht) [As [b E]]]] := C25_random_outcomes ms mx; rewrite -/ms in E.
have G' : group_law n (tget t) e by split; case: G => *; rewrite ?ht; auto; do ?[setoid_rewrite ht]; auto.
have fs' : ifactor_system n (tget t) e mu by case: fs => h1 h2 h3; split=> // *; rewrite !ht h1.
have sz : size ms = n by rewrite size_map size_iota.
have p' : iprojrep n (tget t) e mu (nth 0 ms).
  have rep := proj2 (reg_rep_iff G' mu) (ifs_cocycle fs'); split; last exact: rep.
  have en := e_lt G'.
  apply/matrixP => i j; rewrite -/(aget (Arr ms) e) (@regE C n t mu e i j) // (mul1 G' (ltn_ord j)).1 mxE.
  rewrite -[(_ == _ :> nat)]/(i == j); case: eqP => // _.
  have mu1 := mu1x (ifs_fs G' fs') (Ordinal (ltn_ord j) : igT G'); rewrite /imu ival1 in mu1; exact: mu1.
have u' : iunitary n (nth 0 ms) := proj2 (reg_unitary_iff G' mu) (ifs_norm fs').
have trL i : (i < n)%N -> \tr (nth 0 ms i) = if i == e then n%:R else 0.
  apply: (reg_char G') => j jl.
  have [x <-] := ival_surj G' jl; have := mu1x (ifs_fs G' fs') x; by rewrite /imu ival1.
move: E; rewrite /enumerate_unitary_irreps_from_regular_representation; case: ifP => // look [].
case: (regular_loopP around eigh qr_q hrnd key_le rtol ms mx 0) => [[t' [_ _ _ ->]]|[no _]] => [_|]; first by eexists.
have /negP [] := no trial tm; apply/eqP.
apply: (@separated_complete C n (tget t) e G' mu fs' around rtol (nu_around O) (nu_rtol O) eigh (nu_eigh O) qr_q
  (nu_qr O) key_le n ms sz p' u' r1 _ (averaged_herm look (hermite_randomP hrnd trial n))
  (averaged_comm look G' fs' p' u' (hermite_random hrnd trial n)) _ trL).
by rewrite averagedE.
Qed.

(* ---------- C26 ---------- *)
(** The gather-based sum is the documented einsum with H transposed; for Hermitian H it is
    Hermitian and commutes with the representation. *)
Theorem C26_averaging : forall (ms : seq 'M[C]_n) (H : 'M[C]_n),
  iprojrep n mul e mu (nth 0 ms) -> iunitary n (nth 0 ms) ->
  (forall (m : nat) (i : 'I_n), (m < n)%N -> exists j, nth 0 ms m i j != 0 /\ forall k, k != j -> nth 0 ms m i k = 0) ->
  averaged ms H = \sum_(m < n) nth 0 ms m *m H^T *m adj (nth 0 ms m) /\
  (adj H = H -> adj (averaged ms H) = averaged ms H) /\
  (forall g, (g < n)%N -> nth 0 ms g *m averaged ms H = averaged ms H *m nth 0 ms g) /\
  (H^T = H -> averaged ms H = \sum_(m < n) nth 0 ms m *m H *m adj (nth 0 ms m)).
Proof.
move=> ms H p u h.
have look : [forall m : 'I_n, forall i : 'I_n, lookup ms m i != None].
  by apply/forallP => m; apply/forallP => i; have [j [h1 h2]] := h m i (ltn_ord m); rewrite (lookup_uniq h1 h2).
split; first exact: averagedE.
split; first exact: averaged_herm.
split; first exact: (averaged_comm look G fs p u).
by move=> E; rewrite averagedE // E.
Qed.

(* ---------- C52 ---------- *)
(** decompose_representation: a list returned without the warning consists of unitary
    irreducible representations, pairwise inequivalent, each contained exactly once in the
    given representation, and contains every irreducible constituent. *)
Theorem C52_decompose_sound : forall N (ms : seq 'M[C]_N) mx As,
  size ms = n -> iprojrep n mul e mu (nth 0 ms) -> iunitary n (nth 0 ms) ->
  decompose (Arr ms) mx = (As, true) ->
  let A k := aget (nth arr0 As k) in
  (forall k, (k < size As)%N ->
     [/\ aorder (nth arr0 As k) = n, iprojrep n mul e mu (A k), iunitary n (A k), iirreducible n (A k) &
         icip n (A k) (nth 0 ms) = n%:R]) /\
  (forall k l, (k < size As)%N -> (l < size As)%N -> k <> l -> ~ iequivalent n (A k) (A l)) /\
  (forall i, (i < n)%N -> \tr (nth 0 ms i) = \sum_(k < size As) \tr (A k i)) /\
  (forall d (B : nat -> 'M[C]_d), iprojrep n mul e mu B -> iirreducible n B -> icip n B (nth 0 ms) != 0 ->
     exists k, (k < size As)%N /\ iequivalent n (A k) B).
Proof.
move=> N ms mx As sz p u; rewrite /decompose_representation.
case: (decompose_loopP around eigh qr_q hrnd key_le rtol (Arr ms) mx 0) => [[t [_ ok _ ->]]|[_ ->]] // [<-].
set M := \sum_(M <- _) _ in ok *; have hM : adj M = M.
  by rewrite /M adj_sum; apply: eq_bigr => X _; rewrite !adjM adjK hermite_randomP mulmxA.
have cM i : (i < n)%N -> nth 0 ms i *m M = M *m nth 0 ms i.
  have -> : M = intertwiner_sum ms ms (hermite_random hrnd t N).
    rewrite /M /intertwiner_sum [RHS](big_nth (0, 0)) size_zip minnn (big_nth 0).
    by apply: eq_bigr => j _; rewrite nth_zip.
  exact: (isum_intertwines G fs sz sz p p u).
have fA := @get_irreps_ok C n mul e G mu fs around rtol (nu_around O) (nu_rtol O) eigh (nu_eigh O) qr_q
  (nu_qr O) key_le N ms sz p u M hM cM.
set Bs := get_irreps_from_matrix _ _ _ _ _ _ in fA ok *.
split=> [k kB|]; last split=> [k l kB lB kl eq|]; last split.
- have [s1 p1 u1 n1 _] := fA.1 k kB; split=> //; last exact: (decomposed_one G fs fA (eqP ok) kB).
  apply/(iirreducibleE G); apply: (norm1_irreducible (ifs_fs G fs) (H := [set: igT G]%G)).
  + exact: (proj1 (iprojrepE G _ _) p1).
  + exact: (proj1 (iunitaryE G _) u1).
  + by rewrite -(icipE G) n1 /= cardsT ival_card.
- have [s1 p1 u1 n1 _] := fA.1 k kB; have [s2 p2 u2 n2 _] := fA.1 l lB.
  have := icip_dich G fs p1 u1 n1 p2 u2 n2; rewrite fA.2 // => -[[_ []//]|[/eqP h _]].
  rewrite eq_sym pnatr_eq0 in h; by have := ig_e G; rewrite (eqP h).
- by move=> i il; exact: (decomposed_char G fs fA (eqP ok)).
- by move=> d B pB iB nz; exact: (decomposed_all G fs fA (eqP ok) pB iB nz).
Qed.

(** The documented claim "decompose into all unitary irreps" fails whenever an irreducible
    constituent has multiplicity two or more: the result is always the empty list with the
    warning. *)
Theorem C52_decompose_multiplicity_refuted : forall N (ms : seq 'M[C]_N) mx d (B : nat -> 'M[C]_d) m,
  size ms = n -> iprojrep n mul e mu (nth 0 ms) -> iunitary n (nth 0 ms) ->
  iprojrep n mul e mu B -> iirreducible n B -> icip n B (nth 0 ms) = (m * n)%:R -> (1 < m)%N ->
  decompose (Arr ms) mx = ([::], false).
Proof.
move=> N ms mx d B m sz p u pB iB cB m1.
case E: (decompose (Arr ms) mx) => [As [|]]; last first.
  move: E; rewrite /decompose_representation.
  by case: (decompose_loopP around eigh qr_q hrnd key_le rtol (Arr ms) mx 0) => [[t [_ _ _ ->]]|[_ ->]] // [<-].
exfalso; have n0 : (0 < n)%N by apply: leq_ltn_trans (ig_e G).
have [h1 [h2 [h3 h4]]] := C52_decompose_sound sz p u E.
have nz : icip n B (nth 0 ms) != 0 by rewrite cB pnatr_eq0 -lt0n muln_gt0 n0 andbT; exact: ltnW.
have [k [kA eq]] := h4 _ B pB iB nz; have [_ _ _ _ one] := h1 k kA.
have : icip n B (nth 0 ms) = n%:R.
  rewrite -one; apply: eq_bigr => i _; have [x <-] := ival_surj G (ltn_ord i).
  by rewrite (equivalent_char (proj1 (iequivalentE G _ _) eq) (x := x)) ?inE.
rewrite cB => /eqP; rewrite eqr_nat -{2}[n]mul1n eqn_pmul2r // => /eqP m1'; by rewrite m1' in m1.
Qed.

(** It succeeds for multiplicity-free representations and a separating trial. *)
Theorem C52_decompose_succeeds : forall N (ms : seq 'M[C]_N) mx trial,
  size ms = n -> iprojrep n mul e mu (nth 0 ms) -> iunitary n (nth 0 ms) ->
  (10 ^ 8)%:R^-1 + rtol * n%:R < n%:R -> (trial < mx)%N ->
  (forall d (B : nat -> 'M[C]_d), iprojrep n mul e mu B -> iunitary n B -> iirreducible n B ->
     icip n B (nth 0 ms) = 0 \/ icip n B (nth 0 ms) = n%:R) ->
  let H := hrnd trial N + adj (hrnd trial N) in
  separating n rtol ms (\sum_(M <- ms) M *m H *m adj M) ->
  exists As, decompose (Arr ms) mx = (As, true).
Proof.
move=> N ms mx trial sz p u r1 tm free H sep; rewrite /decompose_representation.
case: (decompose_loopP around eigh qr_q hrnd key_le rtol (Arr ms) mx 0) => [[t [_ ok _ ->]]|[no _]]; first by eexists.
have /negP [] := no trial tm; apply/eqP.
set M := \sum_(M <- _) _ in sep *; have hM : adj M = M.
  by rewrite /M adj_sum; apply: eq_bigr => X _; rewrite !adjM adjK [adj H](hermite_randomP hrnd) mulmxA.
have cM i : (i < n)%N -> nth 0 ms i *m M = M *m nth 0 ms i.
  have -> : M = intertwiner_sum ms ms H.
    rewrite /M /intertwiner_sum [RHS](big_nth (0, 0)) size_zip minnn (big_nth 0).
    by apply: eq_bigr => j _; rewrite nth_zip.
  exact: (isum_intertwines G fs sz sz p p u).
exact: (@separated_decomposes C n mul e G mu fs around rtol (nu_around O) (nu_rtol O) eigh (nu_eigh O) qr_q
  (nu_qr O) key_le N ms sz p u r1 M hM cM sep free).
Qed.
End Claims.
Print Assumptions C25_random_sound_complete.
Print Assumptions C25_random_outcomes.
Print Assumptions C25_random_succeeds.
Print Assumptions C26_averaging.
Print Assumptions C52_decompose_sound.
Print Assumptions C52_decompose_multiplicity_refuted.
Print Assumptions C52_decompose_succeeds.

(* ---------- Concrete cases ---------- *)
(** Such numerical routines exist. *)
Lemma ex_spectral (C : numClosedFieldType) n (M : 'M[C]_n) : adj M = M -> exists p : seq C * 'M[C]_n,
  [&& size p.1 == n, adj p.2 *m p.2 == 1%:M & M *m p.2 == p.2 *m diag_mx (\row_j nth 0 p.1 j)].
Proof. by move=> /hermitian_spectral [evs [V [h1 h2 h3]]]; exists (evs, V); apply/and3P; split; apply/eqP. Qed.
Definition ex_eigh (C : numClosedFieldType) n (M : 'M[C]_n) : seq C * 'M[C]_n :=
  match @eqP _ (adj M) M with
  | ReflectT h => xchoose (ex_spectral h)
  | ReflectF _ => ([::], 0)
  end.
Theorem C25_numerics_exist : forall C : numClosedFieldType,
  @numerics C id (@ex_eigh C) (fun _ _ A => A) 0.
Proof.
move=> C; split=> // [n M hM|n k A hA]; last by split=> //; exists 1%:M; rewrite mulmx1.
rewrite /ex_eigh; case: eqP => [h|//].
by have /and3P [/eqP h1 /eqP h2 /eqP h3] := xchooseP (ex_spectral h).
Qed.

(** Cyclic groups of order two and three with the trivial factor system. *)
Definition ex_z2 : table := [:: [:: 0; 1]; [:: 1; 0]]%N.
Definition ex_z3 : table := [:: [:: 0; 1; 2]; [:: 1; 2; 0]; [:: 2; 0; 1]]%N.
Definition ex_one (C : numClosedFieldType) (i j : nat) : C := 1.
Lemma ex_one_fs (C : numClosedFieldType) n mul e : ifactor_system n mul e (@ex_one C).
Proof. by split=> *; rewrite /ex_one ?normr1. Qed.
Lemma ex_z2_group : group_law 2 (tget ex_z2) 0.
Proof.
split; try lia.
- by move=> [|[|i]] [|[|j]] hi hj; rewrite /tget /=; lia.
- by move=> [|[|i]] [|[|j]] [|[|k]] hi hj hk; rewrite /tget /=; lia.
- by move=> [|[|i]] hi; rewrite /tget /=; lia.
- by move=> [|[|i]] hi; rewrite /tget /=; lia.
- by move=> [|[|i]] hi; try lia; [exists 0%N|exists 1%N]; rewrite /tget /=; repeat split; lia.
Qed.
Lemma ex_z3_group : group_law 3 (tget ex_z3) 0.
Proof.
split; try lia.
- by move=> [|[|[|i]]] [|[|[|j]]] hi hj; rewrite /tget /=; lia.
- by move=> [|[|[|i]]] [|[|[|j]]] [|[|[|k]]] hi hj hk; rewrite /tget /=; lia.
- by move=> [|[|[|i]]] hi; rewrite /tget /=; lia.
- by move=> [|[|[|i]]] hi; rewrite /tget /=; lia.
- by move=> [|[|[|i]]] hi; try lia; [exists 0%N|exists 2%N|exists 1%N]; rewrite /tget /=; repeat split; lia.
Qed.

(** The documented equality einsum("mik,kl,mjl->ij") fails: for the regular representation
    of the cyclic group of order three and H = i(P - P^T) the code obtains -3H, not 3H. *)
Theorem C26_documented_refuted : forall C : numClosedFieldType,
  let ms := regular_mats ex_z3 (@ex_one C) 3 in
  exists H : 'M[C]_3, adj H = H /\ averaged ms H = - (\sum_(m < 3) nth 0 ms m *m H *m adj (nth 0 ms m)) /\
    averaged ms H != \sum_(m < 3) nth 0 ms m *m H *m adj (nth 0 ms m).
Proof.
move=> C ms; have G := ex_z3_group; have fs := @ex_one_fs C 3 (tget ex_z3) 0.
have E k i j : nth 0 ms k i j = if (k < 3)%N then (val i == tget ex_z3 k (val j))%:R else 0.
  case: ifP => kl; last by rewrite nth_default ?mxE // leqNgt kl.
  by rewrite -/(aget (Arr ms) k) regE //; case: eqP.
have T1 : (nth 0 ms 1)^T = nth 0 ms 2.
  by apply/matrixP => -[[|[|[|i]]] // hi] -[[|[|[|j]]] // hj]; rewrite mxE !E.
have T2 : (nth 0 ms 2)^T = nth 0 ms 1 by rewrite -T1 trmxK.
have R k : map_mx conjC (nth 0 ms k) = nth 0 ms k.
  by apply/matrixP => i j; rewrite mxE E; case: ifP => _; rewrite ?conjC0 // conjC_nat.
have un : iunitary 3 (nth 0 ms) := proj2 (reg_unitary_iff G (@ex_one C)) (ifs_norm fs).
have cm i j : (i < 3)%N -> (j < 3)%N -> nth 0 ms i *m nth 0 ms j = nth 0 ms j *m nth 0 ms i.
  move=> hi hj; have rep := proj2 (reg_rep_iff G (@ex_one C)) (ifs_cocycle fs).
  rewrite (rep i j hi hj) (rep j i hj hi); rewrite /ex_one; congr (1 *: _); congr (nth 0 ms _).
  by case: i j hi hj => [|[|[|i]]] // [|[|[|j]]].
pose H : 'M[C]_3 := 'i *: (nth 0 ms 1 - nth 0 ms 2); exists H.
have hT : H^T = - H by rewrite /H -scalerN opprB linearZ /= linearB /= T1 T2.
have hH : adj H = H.
  by rewrite /H adjZ conjCi adjB /adj !R T1 T2 scaleNr scalerBr opprB -scalerBr.
have hS m : (m < 3)%N -> nth 0 ms m *m H *m adj (nth 0 ms m) = H.
  move=> m3; have -> : nth 0 ms m *m H = H *m nth 0 ms m.
    by rewrite /H -scalemxAr -scalemxAl mulmxBr mulmxBl !(cm m).
  by rewrite -mulmxA un // mulmx1.
have avE : averaged ms H = \sum_(m < 3) nth 0 ms m *m H^T *m adj (nth 0 ms m).
  apply: averagedE; apply/forallP => m; apply/forallP => i.
  have [_ [raise /(_ ex_z3 (fun _ _ => erefl)) [As [b]]]] := @C25_random_outcomes C id (@ex_eigh C) (fun _ _ A => A) (fun _ _ => 0)
    (fun _ _ => true) 0 3 (tget ex_z3) 0 (@ex_one C) G fs ms 0.
  by rewrite /enumerate_unitary_irreps_from_regular_representation; case: ifP => // look _; have /forallP /(_ i) := forallP look m.
have S : \sum_(m < 3) nth 0 ms m *m H *m adj (nth 0 ms m) = H *+ 3.
  by rewrite (eq_bigr (fun _ => H)) ?sumr_const ?card_ord // => m _; rewrite hS.
have avH : averaged ms H = - (H *+ 3).
  rewrite avE hT -S -sumrN; apply: eq_bigr => m _; by rewrite mulmxN mulNmx.
split=> //; rewrite avH S; split=> //; have h01 : H 0 1 = - 'i by rewrite /H mxE [X in _ * X]mxE [X in _ + X]mxE !E /= sub0r mulrN1.
apply/eqP => h; have {h} : (H *+ 6) 0 1 = 0 by rewrite (mulrnDr H 3 3) -{1}h addNr mxE.
by rewrite mulmxnE h01 => /eqP; rewrite mulNrn oppr_eq0 mulrn_eq0 /= (negbTE (neq0Ci C)).
Qed.
Print Assumptions C26_documented_refuted.

(** The hypotheses of the success theorems hold for the cyclic group of order two, the
    draw [[0, 1], [0, 0]] and rtol = 0. *)
Definition ex_hrnd (C : numClosedFieldType) (trial n : nat) : 'M[C]_n := \matrix_(i, j) ((val i == 0%N) && (val j == 1%N))%:R.
Lemma z2_mats (C : numClosedFieldType) : regular_mats ex_z2 (@ex_one C) 2 = [:: mx2 1 0 0 1; mx2 0 1 1 0].
Proof.
have E k i j : (k < 2)%N -> nth 0 (regular_mats ex_z2 (@ex_one C) 2) k i j = (val i == tget ex_z2 k (val j))%:R.
  by move=> kl; rewrite -/(aget (Arr (regular_mats ex_z2 (@ex_one C) 2)) k) regE //; case: eqP.
apply: (@eq_from_nth _ 0) => //= -[|[|k]] // _; apply: mx2P; split; rewrite E //.
all: by rewrite mxE /= /bump /= ?eqxx.
Qed.
Lemma z2_separating (C : numClosedFieldType) :
  let ms := regular_mats ex_z2 (@ex_one C) 2 in
  let H := ex_hrnd C 0 2 + adj (ex_hrnd C 0 2) in
  separating 2 0 ms (\sum_(m < 2) nth 0 ms m *m H^T *m adj (nth 0 ms m)).
Proof.
move=> ms H; set M := \sum_(_ < _) _.
have HE : H = mx2 0 1 1 0 by apply: mx2P; split; rewrite !mxE /= ?conjC0 ?conjC1 ?addr0 ?add0r.
have ME : M = mx2 0 2%:R 2%:R 0.
  rewrite /M !big_ord_recl big_ord0 addr0 HE /ms z2_mats /= mx2_trmx !mx2_adj !mx2M mx2D conjC0 conjC1.
  by rewrite !(mulr0, mulr1, mul0r, mul1r, addr0, add0r).
have vE (u : 'cV[C]_2) a : M *m u = a *: u -> 2%:R * u 1 0 = a * u 0 0 /\ 2%:R * u 0 0 = a * u 1 0.
  move=> /matrixP h; have := h 0 0; have := h 1 0.
  have e1 : lift ord0 ord0 = 1 :> 'I_2 by apply: val_inj.
  by rewrite ME !mxE !big_ord_recl !big_ord0 !mxE /= !mul0r !addr0 !add0r e1 => h1 h2; split; [exact: h2|exact: h1].
have ev (u : 'cV[C]_2) a : u != 0 -> M *m u = a *: u -> a = 2%:R \/ a = - 2%:R.
  move=> u0 /vE [h1 h2]; suff : (a - 2%:R) * (a + 2%:R) == 0.
    by rewrite mulf_eq0 subr_eq0 addr_eq0 => /orP [] /eqP ->; auto.
  rewrite -subr_sqr subr_eq0 !expr2; have [z|nz] := eqVneq (u 0 0) 0; last first.
    by apply/eqP; apply: (mulIf nz); rewrite -!mulrA -h1 h2 mulrCA.
  have [z1|nz1] := eqVneq (u 1 0) 0; last first.
    by apply/eqP; apply: (mulIf nz1); rewrite -!mulrA -h2 h1 mulrCA.
  case/eqP: u0; apply/matrixP => i j; rewrite (ord1 j) mxE; move: i; apply: ord2P => //.
  by rewrite -[RHS]z1; congr (u _ _); apply: val_inj.
have far : np_isclose 0 (2%:R : C) (- 2%:R) = false /\ np_isclose 0 (- 2%:R : C) 2%:R = false.
  have lt : (10 ^ 8)%:R^-1 < (4%:R : C).
    apply: (@le_lt_trans _ _ 1); last by rewrite ltr1n.
    by rewrite invf_le1 ?ltr0n ?ler1n ?expn_gt0.
  rewrite /np_isclose !mul0r !addr0 opprK -opprD normrN -natrD normr_nat.
  by split; apply/negbTE/negP => le; have := lt_le_trans lt le; rewrite ltxx.
split=> [a b u v u0 v0 hu hv cl|a m W hW inv].
  have [] := ev u a u0 hu; have [] := ev v b v0 hv; move=> ha hb; rewrite ha hb // in cl *.
  - by rewrite far.1 in cl.
  - by rewrite far.2 in cl.
have colW k (X : 'M[C]_(2, k)) j : M *m X = a *: X -> M *m col j X = a *: col j X.
  by move=> h; rewrite !colE mulmxA h scalemxAl.
have n2 : (2%:R : C) != 0 by rewrite pnatr_eq0.
(* the second entry of an eigenvector is a/2 times the first *)
have row k (X : 'M[C]_(2, k)) : M *m X = a *: X -> forall j, X 1 j = a / 2%:R * X 0 j.
  move=> h j; have [h1 _] := vE _ _ (colW _ X j h); rewrite !mxE in h1.
  by apply: (mulfI n2); rewrite h1 mulrA mulrCA divff // mulr1.
have [/existsP [j nz]|] := boolP [exists j, W 0 j != 0]; last first.
  rewrite negb_exists => /forallP z; left; have z' j : W 0 j = 0 by apply/eqP; have := z j; rewrite negbK.
  apply/matrixP => i j; rewrite mxE; move: i; apply: ord2P => //.
  by rewrite (_ : lift _ _ = 1) ?(row _ _ hW) ?z' ?mulr0 //; apply: val_inj.
right=> p X hX; exists (\matrix_(k, l) ((k == j)%:R * (X 0 l / W 0 j))).
apply/matrixP => i l; rewrite mxE (bigD1 j) //= big1 ?addr0 => [|k kj]; last by rewrite mxE (negbTE kj) mul0r mulr0.
rewrite mxE eqxx mul1r; move: i; apply: ord2P; first by rewrite mulrCA divff // mulr1.
rewrite (_ : lift _ _ = 1) ?(row _ _ hW) ?(row _ _ hX); last by apply: val_inj.
by rewrite -[RHS]mulrA [W 0 j * _]mulrCA divff // mulr1.
Qed.
Example C25_succeeds_on_z2 : forall (C : numClosedFieldType) key_le mx, (0 < mx)%N ->
  exists As, enumerate_unitary_irreps_from_regular_representation id (@ex_eigh C) (fun _ _ A => A) (@ex_hrnd C) key_le 0
    (regular_mats ex_z2 (@ex_one C) 2) mx = Ret (As, true) /\
    complete_irreps 2 (tget ex_z2) 0 (@ex_one C) (size As) (fun k => aget (nth (Arr (adim := 0) [::]) As k)).
Proof.
move=> C kl mx mx0; have fs := @ex_one_fs C 2 (tget ex_z2) 0.
have [|As E] := C25_random_succeeds kl (C25_numerics_exist C) ex_z2_group fs (t := ex_z2) (fun _ _ => erefl) _ mx0 (@z2_separating C).
  rewrite mul0r addr0; apply: (@le_lt_trans _ _ 1); last by rewrite ltr1n.
  by rewrite invf_le1 ?ltr0n ?ler1n ?expn_gt0.
exists As; split=> //.
apply: (C25_random_sound_complete (C25_numerics_exist C) ex_z2_group fs _ _ _ E).2 => //.
- have rep := proj2 (reg_rep_iff ex_z2_group (@ex_one C)) (ifs_cocycle fs); split; last exact: rep.
  by rewrite z2_mats mx2_1.
- exact: (proj2 (reg_unitary_iff ex_z2_group (@ex_one C)) (ifs_norm fs)).
Qed.

(** Twice the trivial representation of the cyclic group of order two: decomposing it
    always ends with the warning and an empty list. *)
Example C52_double_trivial : forall (C : numClosedFieldType) eigh qr_q hrnd key_le rtol mx,
  @numerics C id eigh qr_q rtol ->
  decompose_representation id eigh qr_q hrnd key_le rtol (Arr [:: mx2 1 0 0 1; mx2 1 0 0 1 : 'M[C]_2]) mx = ([::], false).
Proof.
move=> C eigh qr_q hrnd key_le rtol mx O; have fs := @ex_one_fs C 2 (tget ex_z2) 0.
apply: (C52_decompose_multiplicity_refuted (n := 2) hrnd key_le O ex_z2_group fs _ (B := fun _ => 1%:M : 'M[C]_1) (m := 2)) => //.
- rewrite -mx2_1; split=> // -[|[|i]] // [|[|j]] // _ _; by rewrite /= mulmx1 scale1r.
- by move=> [|[|i]] // _; rewrite /= -mx2_1 adj1 mulmx1.
- by split=> // *; rewrite mulmx1 scale1r.
- split=> // m W _; have [->|nz] := eqVneq W 0; [by left|right].
  have [j wj] : exists j, W 0 j != 0.
    have [/existsP //|] := boolP [exists j, W 0 j != 0]; rewrite negb_exists => /forallP z; case/eqP: nz.
    by apply/matrixP => i j; rewrite (ord1 i) mxE; apply/eqP; have := z j; rewrite negbK.
  exists (\matrix_(k, l) ((k == j)%:R / W 0 j)); apply/matrixP => a b; rewrite !ord1 mxE (bigD1 j) //=.
  by rewrite big1 ?addr0 ?mxE ?eqxx ?mul1r ?divff // => k kj; rewrite mxE (negbTE kj) mul0r mulr0.
- rewrite /icip !big_ord_recl big_ord0 /= mx2_tr mxtrace1 conjC_nat; by rewrite addr0 !mul1r -(natrD _ 1 1) -(natrD _ 2 2).
Qed.
Print Assumptions C25_succeeds_on_z2.
Print Assumptions C52_double_trivial.
