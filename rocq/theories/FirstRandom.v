(** The random method sorts the irreps by (dim, minus of sum of characters). *)
From Coq Require Import Lia.
From mathcomp Require Import all_ssreflect all_algebra zify.
From Verif Require Import Py RepSpec RepModel IndexRepSpec RandomModel RandomTheory GroupModel GroupSpec RepTheory IndexGroup AgreeTheory FirstSpec.
Import Order.TTheory GRing.Theory Num.Theory.
Set Implicit Arguments.
Unset Strict Implicit.
Unset Printing Implicit Defensive.
Local Open Scope ring_scope.

Section Order.
Variable C : numClosedFieldType.
Lemma numpy_le_total : total (@numpy_le C).
Proof.
move=> a b; rewrite /numpy_le.
case: (real_ltgtP (Creal_Re a) (Creal_Re b)) => h; rewrite ?orbT //=.
exact: (real_leVge (Creal_Im a) (Creal_Im b)).
Qed.
Lemma numpy_le_trans : transitive (@numpy_le C).
Proof.
move=> b a c; rewrite /numpy_le => /orP [h|/andP [/eqP -> h]] /orP [h'|/andP [/eqP e h']].
- by rewrite (lt_trans h h').
- by rewrite -e h.
- by rewrite h'.
- by rewrite e eqxx (le_trans h h') orbT.
Qed.
End Order.

Section Sorted.
Variables (C : numClosedFieldType) (around : C -> C) (eigh : forall n, 'M[C]_n -> seq C * 'M[C]_n).
Variables (qr_q : forall n k, 'M[C]_(n, k) -> 'M[C]_(n, k)) (rtol : C).
Local Notation arr0 := (Arr (adim := 0) [::]).
Variable key_le : C -> C -> bool.
Hypothesis keyE : forall a b, key_le a b = numpy_le a b.

Lemma key_total st : total (key_rel key_le st).
Proof.
move=> i j; rewrite /key_rel eq_sym; set di := adim _; set dj := adim _.
by case: (ltngtP di dj) => // _; rewrite !keyE; exact: numpy_le_total.
Qed.
Lemma key_trans st : transitive (key_rel key_le st).
Proof.
move=> j i k; rewrite /key_rel; set di := adim (nth _ _ i); set dj := adim (nth _ _ j); set dk := adim (nth _ _ k).
clearbody di dj dk; case: (ltngtP di dj) => // h1; case: (ltngtP dj dk) => // h2; last first.
  by rewrite h1 h2 eqxx !keyE; exact: numpy_le_trans.
all: by move=> _ _; case: (ltngtP di dk) => // h3; exfalso; move: h1 h2 h3; clear; lia.
Qed.

Lemma fold_chars (reg : arr C) sps st : st.2 = [seq [seq \tr M | M <- amats A] | A <- st.1] ->
  let st' := foldl (@try_space C around qr_q rtol reg) st sps in
  st'.2 = [seq [seq \tr M | M <- amats A] | A <- st'.1].
Proof.
elim: sps st => [|sp sps IH] st //= h; apply: IH; rewrite /try_space.
case: ifP => // _; case: ifP => // _ /=; rewrite map_rcons h; congr rcons.
by rewrite /= -map_comp.
Qed.

Lemma irreps_sorted (reg : arr C) (M : 'M[C]_(adim reg)) i j :
  let As := get_irreps_from_matrix around eigh qr_q key_le rtol M in
  (i < j < size As)%N -> listed_before (nth arr0 As i) (nth arr0 As j).
Proof.
rewrite /get_irreps_from_matrix; set st := foldl _ _ _; set p := sort _ _ => /=.
have hc : st.2 = [seq [seq \tr M | M <- amats A] | A <- st.1] by exact: fold_chars.
rewrite size_map => /andP [ij jl]; have il := ltn_trans ij jl.
have sp : sorted (key_rel key_le st) p by apply: sort_sorted; exact: key_total.
have ml x : (x < size p)%N -> (nth 0%N p x < size st.1)%N.
  by move=> h; have := mem_nth 0%N h; rewrite /p mem_sort mem_iota.
have := sorted_ltn_nth (@key_trans st) 0%N sp (i) (j) il jl ij.
rewrite !(nth_map 0%N) // /key_rel /listed_before.
have tot x : (x < size st.1)%N -> \sum_(y <- nth [::] st.2 x) y = character_total (nth arr0 st.1 x).
  by move=> h; rewrite hc (nth_map arr0) // big_map.
rewrite !tot ?ml // keyE.
by case: (eqVneq (adim _) (adim _)) => [e h|_ h]; [right|left].
Qed.
End Sorted.

(** A full list that is sorted in this way starts with the identity representation. *)
Section First.
Variables (C : numClosedFieldType) (n : nat) (mul : nat -> nat -> nat) (e : nat) (mu : nat -> nat -> C).
Hypothesis G : group_law n mul e.
Hypothesis mu1 : forall i j, (i < n)%N -> (j < n)%N -> mu i j = 1.
Local Notation arr0 := (Arr (adim := 0) [::] : arr C).

Lemma sorted_first (As : seq (arr C)) :
  (forall k, (k < size As)%N -> aorder (nth arr0 As k) = n) ->
  complete_irreps n mul e mu (size As) (fun k => aget (nth arr0 As k)) ->
  (forall i j, (i < j < size As)%N -> listed_before (nth arr0 As i) (nth arr0 As j)) ->
  exists As', As = unit_arr C n :: As'.
Proof.
move=> sz ci srt.
have n0 : (0 < n)%N := leq_ltn_trans (leq0n e) (ig_e G).
pose F (i : nat) : 'M[C]_1 := 1%:M.
have pF : iprojrep n mul e mu F by split=> // i j hi hj; rewrite mu1 // scale1r mulmx1.
have iF : iirreducible n F.
  split=> // m W _; case: (eqVneq W 0) => [->|/eqP W0]; [by left|right].
  have [j hj] : exists j, W 0 j != 0.
    apply/existsP; case: existsP => // h0; have h j : ~~ (W 0 j != 0) by apply/negP => hj; apply: h0; exists j.
    case: W0; apply/matrixP => i j; rewrite ord1 mxE.
    by apply/eqP; have := h j; rewrite negbK.
  exists (delta_mx j 0 *m (W 0 j)^-1%:M); apply/matrixP => a b; rewrite !ord1.
  rewrite mulmxA -colE mul_mx_scalar !mxE eqxx mulVf //.
have [k [kl [T [T' [h1 h2 h3]]] _]] := ci_complete ci pF iF.
have dk : adim (nth arr0 As k) = 1%N.
  by apply: (@iequivalent_dim C n _ 1 (aget (nth arr0 As k)) F); exists T, T'.
have Dk i : (i < n)%N -> aget (nth arr0 As k) i = 1%:M.
  by move=> il; rewrite -[LHS]mulmx1 -h1 mulmxA h3 // /F mulmx1.
have Ak : nth arr0 As k = unit_arr C n.
  move: dk Dk (sz k kl); case: (nth _ _ k) => d ms /= d1; case: _ / (esym d1) ms => ms Dk' sk.
  rewrite /unit_arr; congr Arr; apply: (@eq_from_nth _ 0); first by rewrite size_nseq.
  by move=> i; rewrite (sk : size ms = n) => il; rewrite nth_nseq il; exact: Dk'.
have l0 : (0 < size As)%N := leq_ltn_trans (leq0n k) kl.
suff k0 : k = 0%N by move: Ak; rewrite k0; case: (As) l0 => // a l _ /= ->; exists l.
apply/eqP; apply: contraT; rewrite -lt0n => kp.
have := srt 0%N k; rewrite kp kl => /(_ isT) [|[d0]].
  rewrite dk ltnS leqn0 => /eqP z; have [h _] := ci_irreducible ci l0; by rewrite z in h.
have -> : character_total (nth arr0 As 0) = 0.
  have := ci_orthogonal ci kl l0; rewrite (gtn_eqF kp) /icip => <-.
  rewrite /character_total (big_nth 0) big_mkord (sz 0%N l0 : size _ = n).
  by apply: eq_bigr => i _; rewrite Dk // mxtrace1 dk conjC1 mul1r.
have -> : character_total (nth arr0 As k) = n%:R.
  by rewrite Ak /character_total /= big_nseq mxtrace1 iter_addr addr0.
rewrite /numpy_le oppr0 (Creal_ReP _ (rpred0 _)) (Creal_ReP (- n%:R) _) ?rpredN ?rpred_nat //.
by rewrite oppr_gt0 ltrn0 /= eq_sym oppr_eq0 pnatr_eq0 (gtn_eqF n0).
Qed.
End First.
