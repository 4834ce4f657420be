(** Stability: every Hermitian matrix of the commutant close to one with well separated
    eigenvalues on a family of minimal projections separates the representation. *)
From Coq Require Import Lia.
From mathcomp Require Import all_ssreflect all_algebra all_fingroup zify.
From Verif Require Import Py GroupModel GroupSpec GroupProofs RepSpec RepModel RepTheory IsoTheory
  IndexRepSpec IndexGroup MultTheory CompleteTheory RepProofs RandomModel RandomTheory SpectralTheory SearchTheory.
Import Order.TTheory GRing.Theory Num.Theory.
Set Implicit Arguments.
Unset Strict Implicit.
Unset Printing Implicit Defensive.
Local Open Scope ring_scope.

Section Fro.
Variables (C : numClosedFieldType).
Definition fro n m (X : 'M[C]_(n, m)) : C := \tr (adj X *m X).
Lemma froE n m (X : 'M[C]_(n, m)) : fro X = \sum_j \sum_i `|X i j| ^+ 2.
Proof.
rewrite /fro /mxtrace; apply: eq_bigr => j _; rewrite mxE; apply: eq_bigr => i _.
by rewrite adjE normCK mulrC.
Qed.
Lemma fro_ge0 n m (X : 'M[C]_(n, m)) : 0 <= fro X.
Proof. by rewrite froE; apply: sumr_ge0 => j _; apply: sumr_ge0 => i _; rewrite exprn_ge0. Qed.
Lemma fro_eq0 n m (X : 'M[C]_(n, m)) : fro X = 0 -> X = 0.
Proof.
rewrite froE => /eqP; rewrite psumr_eq0 => [/allP h|j _]; last by apply: sumr_ge0 => i _; rewrite exprn_ge0.
apply/matrixP => i j; rewrite mxE; have := h j (mem_index_enum _); rewrite /= psumr_eq0 => [/allP g|l _]; last by rewrite exprn_ge0.
by have := g i (mem_index_enum _); rewrite /= expf_eq0 /= normr_eq0 => /eqP.
Qed.
Lemma fro_le n (X : 'M[C]_n) (k : C) : 0 <= k -> (forall i j, `|X i j| <= k) -> fro X <= (n%:R * k) ^+ 2.
Proof.
move=> k0 h; rewrite froE; apply: (@le_trans _ _ (\sum_(j < n) \sum_(i < n) k ^+ 2)).
  by apply: ler_sum => j _; apply: ler_sum => i _; rewrite ler_expn2r ?nnegrE // ?h.
by rewrite !sumr_const !card_ord exprMn -mulrnA -[_ *+ _]mulr_natl natrM expr2.
Qed.
Lemma fro_proj n (D P : 'M[C]_n) : adj P = P -> P *m P = P -> fro (D *m P) <= fro D.
Proof.
move=> h1 h2; have e X : adj X = X -> X *m X = X -> fro (D *m X) = \tr (adj D *m D *m X).
  by move=> x1 x2; rewrite /fro adjM x1 mulmxA mxtrace_mulC mulmxA mulmxA x2 -mulmxA mxtrace_mulC.
rewrite e // -subr_ge0 /fro -raddfB /= -{1}[adj D *m D]mulmx1 -mulmxBr -e ?fro_ge0 //.
  by rewrite adjB adj1 h1.
by rewrite mulmxBl !mulmxBr !mulmx1 !mul1mx h2 subrr subr0.
Qed.
End Fro.

Section Near.
Variables (C : numClosedFieldType) (N : nat) (M0 M P : 'M[C]_N) (b k eta : C).
Variables (as_ : seq C) (E : C -> 'M[C]_N).
Hypotheses (sE : \sum_(a <- as_) E a = 1%:M) (fE : forall a, [/\ adj (E a) = E a, E a *m E a = E a & M *m E a = a *: E a]).
Hypothesis (oE : forall a b, a != b -> E a *m E b = 0).
Hypotheses (ua : uniq as_) (hM : adj M = M).
Hypotheses (hP : adj P = P) (PP : P *m P = P) (P0 : P != 0) (MP : M0 *m P = b *: P).
Hypotheses (k0 : 0 <= k) (kM : forall i j, `|M i j - M0 i j| <= k) (ke : N%:R * k < eta).

Lemma near_eig : has (fun a => (E a != 0) && (`|a - b| <= eta)) as_.
Proof.
have e0 : 0 <= eta by apply: ltW; apply: le_lt_trans ke; rewrite mulr_ge0 // ler0n.
have t0 a : 0 <= fro (E a *m P) := fro_ge0 _.
have tP : \sum_(a <- as_) fro (E a *m P) = \tr P.
  rewrite (eq_bigr (fun a => \tr (P *m E a *m P))) => [|a _].
    by rewrite -raddf_sum /= -mulmx_suml -mulmx_sumr sE mulmx1 PP.
  by have [h1 h2 _] := fE a; rewrite /fro adjM hP h1 mulmxA -[P *m E a *m E a]mulmxA h2.
have fM : fro ((M - M0) *m P) = \sum_(a <- as_) `|a - b| ^+ 2 * fro (E a *m P).
  have -> : (M - M0) *m P = \sum_(a <- as_) (a - b) *: (E a *m P).
    have PE : P = \sum_(a <- as_) E a *m P by rewrite -mulmx_suml sE mul1mx.
    rewrite mulmxBl MP {1 2}PE mulmx_sumr scaler_sumr -sumrB; apply: eq_bigr => a _.
    by have [_ _ h] := fE a; rewrite mulmxA h -scalemxAl scalerBl.
  rewrite /fro adj_sum mulmx_suml raddf_sum /=; apply: eq_big_seq => a ain; rewrite mulmx_sumr raddf_sum /=.
  rewrite (bigD1_seq a) //= big1 => [|c ca].
    by rewrite addr0 adjZ -scalemxAl -scalemxAr scalerA mxtraceZ normCK [_^* * _]mulrC.
  have [h1 h2 _] := fE a; rewrite adjZ -scalemxAl -scalemxAr adjM h1 -mulmxA [E a *m _]mulmxA oE ?mul0mx ?mulmx0 ?scaler0 ?mxtrace0 //.
  by rewrite eq_sym.
apply/negPn/negP; rewrite -all_predC => /allP far.
have lo : eta ^+ 2 * \tr P <= fro ((M - M0) *m P).
  rewrite fM -tP mulr_sumr !big_seq; apply: ler_sum => a ain; have := far a ain; rewrite /= negb_and negbK => /orP [/eqP z|h].
    by rewrite z mul0mx /fro mulmx0 mxtrace0 !mulr0.
  rewrite ler_wpmul2r // ler_expn2r ?nnegrE //; apply: ltW; rewrite real_ltNge //; exact: ger0_real.
have hi : fro ((M - M0) *m P) <= (N%:R * k) ^+ 2.
  apply: le_trans (fro_proj _ hP PP) _; apply: fro_le => // i j; by rewrite !mxE kM.
have tr1 : 1 <= \tr P by rewrite (MultTheory.idem_trace PP) ler1n lt0n mxrank_eq0.
have : eta ^+ 2 <= (N%:R * k) ^+ 2.
  apply: le_trans (le_trans lo hi); rewrite -{1}[eta ^+ 2]mulr1 ler_wpmul2l ?exprn_ge0 //.
rewrite ler_pexpn2r ?nnegrE ?mulr_ge0 ?ler0n // => h.
by have := le_lt_trans h ke; rewrite ltxx.
Qed.
End Near.

Section Length.
Variables (C : numClosedFieldType) (n : nat) (mul : nat -> nat -> nat) (e : nat).
Hypothesis G : group_law n mul e.
Variable mu : nat -> nat -> C.
Hypothesis imufs : ifactor_system n mul e mu.
Variables (N : nat) (ms : seq 'M[C]_N).
Let L (i : nat) : 'M[C]_N := nth 0 ms i.
Hypotheses (pL : iprojrep n mul e mu L) (uL : iunitary n L).
Variables (K : nat) (dim : nat -> nat) (D : forall k, nat -> 'M[C]_(dim k)).
Hypothesis cA : complete_irreps n mul e mu K D.
Local Notation arr0 := (Arr (adim := 0) [::]).
Local Notation resolution := (resolution n ms).
Local Notation hproj := (hproj n ms).
Local Notation minimal := (minimal n ms).

Lemma pcip_sum (Ps : seq 'M[C]_N) d (B : nat -> 'M[C]_d) :
  \sum_(P <- Ps) pcip n ms P B = pcip n ms (\sum_(P <- Ps) P) B.
Proof.
rewrite exchange_big /=; apply: eq_bigr => i _; rewrite -mulr_suml; congr (_ * _).
by rewrite -rmorph_sum -raddf_sum -mulmx_suml.
Qed.
Lemma resolution_size (Ps Qs : seq 'M[C]_N) : resolution 1%:M Ps -> resolution 1%:M Qs -> size Ps = size Qs.
Proof.
have n0 := n_neq0 C G.
have len (P : 'M[C]_N) : hproj P -> P != 0 -> minimal P -> \sum_(k < K) pcip n ms P (D k) = n%:R.
  move=> hP P0 mP.
  have [|Bs [sB]] := @carriers C n _ ms [:: P]; first by move=> Q; rewrite inE => /eqP ->.
  move=> /(_ 0%N isT) /=; set B := nth _ Bs 0 => cB.
  have [pB uB] := carries_rep G pL uL hP cB; have nB := carries_norm1 G imufs pL uL hP P0 mP cB.
  have iB : iirreducible n (aget B).
    apply/(iirreducibleE G); apply: (norm1_irreducible (ifs_fs G imufs) (proj1 (iprojrepE G _ _) pB) (proj1 (iunitaryE G _) uB)).
    by rewrite -icipE nB cardsT ival_card.
  have [k [kl eq un]] := ci_complete cA pB iB.
  have nD j : (j < K)%N -> icip n (D j) (D j) = n%:R.
    by move=> jl; rewrite (ci_orthogonal cA) // eqxx.
  have sy (j : nat) : iequivalent n (aget B) (D j) -> iequivalent n (D j) (aget B).
    move=> h; apply/(iequivalentE G); apply: equivalent_sym; exact: (proj1 (iequivalentE G _ _) h).
  have sy' (j : nat) : iequivalent n (D j) (aget B) -> iequivalent n (aget B) (D j).
    move=> h; apply/(iequivalentE G); apply: equivalent_sym; exact: (proj1 (iequivalentE G _ _) h).
  rewrite (bigD1 (Ordinal kl)) //= big1 => [|j jk]; rewrite -(carries_icip _ cB).
    rewrite addr0; case: (icip_dich G imufs pB uB nB (ci_rep cA kl) (ci_unitary cA kl) (nD _ kl)) => -[-> //] h.
    by case: h; exact: sy'.
  case: (icip_dich G imufs pB uB nB (ci_rep cA (ltn_ord j)) (ci_unitary cA (ltn_ord j)) (nD _ (ltn_ord j))) => -[-> //] h.
  case/eqP: jk; apply: val_inj => /=; apply: un => //; exact: sy.
have tot (Rs : seq 'M[C]_N) : resolution 1%:M Rs -> (size Rs)%:R * n%:R = \sum_(k < K) pcip n ms 1%:M (D k).
  move=> [u h o s]; rewrite [RHS](eq_bigr (fun k : 'I__ => \sum_(P <- Rs) pcip n ms P (D k))) => [|k _].
    2: by rewrite pcip_sum s.
  rewrite exchange_big /= big_seq (eq_bigr (fun _ => n%:R)) => [|P /h [a b c _ _]]; last exact: len.
  by rewrite -big_seq big_const_seq count_predT iter_addr_0 mulr_natl.
move=> /tot t1 /tot t2; apply/eqP; rewrite -(eqr_nat C); apply/eqP; apply: (mulIf n0); by rewrite t1 t2.
Qed.

(** A family of non-zero orthogonal projections with sum R, not nec. minimal. *)
Lemma refine_family (Qs : seq 'M[C]_N) : uniq Qs -> (forall Q, Q \in Qs -> hproj Q /\ Q != 0) ->
  (forall Q R, Q \in Qs -> R \in Qs -> Q != R -> Q *m R = 0) ->
  exists Rs, [/\ resolution (\sum_(Q <- Qs) Q) Rs, (size Qs <= size Rs)%N & size Rs = size Qs -> forall Q, Q \in Qs -> minimal Q].
Proof.
elim: Qs => [|Q Qs IH] /=; first by exists [::]; split=> //; split=> //; rewrite !big_nil.
move=> /andP [Qn uQ] h o.
have [||Rs [r1 r2 r3]] := IH uQ; [by move=> R Rin; apply: h; rewrite inE Rin orbT|by move=> R S Rin Sin; apply: o; rewrite inE ?Rin ?Sin orbT|].
have [hQ Q0] := h Q (mem_head _ _).
have [Ts t1] := resolution_exists G imufs pL uL hQ.
have ts : (0 < size Ts)%N by rewrite lt0n size_eq0; apply/eqP => z; move: (re_sum t1) Q0; rewrite z big_nil => <-; rewrite eqxx.
have QR R : R \in Qs -> Q *m R = 0 /\ R *m Q = 0.
  move=> Rin; have nq : Q != R by apply: contraNneq Qn => ->.
  by split; apply: o; rewrite ?inE ?eqxx ?Rin ?orbT // eq_sym.
exists (Ts ++ Rs); rewrite big_cons size_cat; split=> [||sz S].
- apply: resolution_cat => //.
    by rewrite mulmx_sumr big_seq big1 // => R /QR [].
  by rewrite mulmx_suml big_seq big1 // => R /QR [].
- by move: ts r2; move: (size Ts) (size Rs) (size Qs) => x y z; lia.
have [e1 e2] : size Ts = 1%N /\ size Rs = size Qs by move: ts r2 sz; move: (size Ts) (size Rs) (size Qs) => x y z; lia.
rewrite inE => /orP [/eqP ->|]; last exact: r3.
have := re_sum t1; case: Ts e1 t1 {ts sz} => [//|T [|//]] _ t1; rewrite big_seq1 => <-.
by have [_ _ m _ _] := re_hproj t1 (mem_head _ _).
Qed.

Lemma fine_minimal (Ps Qs : seq 'M[C]_N) : resolution 1%:M Ps -> uniq Qs -> (forall Q, Q \in Qs -> hproj Q /\ Q != 0) ->
  (forall Q R, Q \in Qs -> R \in Qs -> Q != R -> Q *m R = 0) -> \sum_(Q <- Qs) Q = 1%:M -> (size Ps <= size Qs)%N ->
  size Qs = size Ps /\ forall Q, Q \in Qs -> minimal Q.
Proof.
move=> rP u h o s le; have [Rs [r1 r2 r3]] := refine_family u h o; rewrite s in r1.
have e1 := resolution_size rP r1; have e2 : size Qs = size Rs by apply/eqP; rewrite eqn_leq r2 -e1 le.
by split; [rewrite e2|apply: r3].
Qed.

Section Separate.
Variables (rtol : C) (Ps : seq 'M[C]_N) (bv : 'M[C]_N -> C) (M0 M : 'M[C]_N) (gam bet k eta : C).
Hypotheses (rP : resolution 1%:M Ps) (M0P : forall P, P \in Ps -> M0 *m P = bv P *: P).
Hypothesis gaps : forall P Q, P \in Ps -> Q \in Ps -> P != Q -> gam <= `|bv P - bv Q|.
Hypothesis bnd : forall P, P \in Ps -> `|bv P| <= bet.
Hypotheses (hM : adj M = M) (cM : forall i, (i < n)%N -> L i *m M = M *m L i).
Hypotheses (k0 : 0 <= k) (kM : forall i j, `|M i j - M0 i j| <= k) (ke : N%:R * k < eta).
Hypotheses (rt0 : 0 <= rtol) (tol : (10 ^ 8)%:R^-1 + rtol * (bet + eta) < gam - eta *+ 2).

Lemma perturb_separating : separating n rtol ms M.
Proof.
have [as_ [E [ua sE fE oE cE]]] := spectral_proj hM.
have e0 : 0 <= eta by apply: ltW; apply: le_lt_trans ke; rewrite mulr_ge0 // ler0n.
have hE a : hproj (E a).
  by have [h1 h2 _ _] := fE a; split=> // i il; apply: cE; exact: cM.
pose good P a := (E a != 0) && (`|a - bv P| <= eta).
have hasg P : P \in Ps -> has (good P) as_.
  move=> Pin; have [[p1 p2 _] p3 _ _ _] := re_hproj rP Pin.
  have fE' a : [/\ adj (E a) = E a, E a *m E a = E a & M *m E a = a *: E a] by have [] := fE a.
  exact: (near_eig sE fE' oE ua p1 p2 p3 (M0P Pin) k0 kM ke).
pose f P := nth 0 as_ (find (good P) as_).
have fg P : P \in Ps -> good P (f P) by move=> /hasg; exact: nth_find.
have fin P : P \in Ps -> f P \in [seq a <- as_ | E a != 0].
  move=> Pin; have /andP [h _] := fg P Pin; rewrite mem_filter h mem_nth // -has_find; exact: hasg.
have g0 : 0 <= bet + eta -> 0 < gam - eta *+ 2.
  by move=> h; apply: le_lt_trans tol; rewrite addr_ge0 ?invr_ge0 ?ler0n // mulr_ge0.
have bpos P : P \in Ps -> 0 <= bet + eta.
  by move=> Pin; rewrite addr_ge0 //; apply: le_trans (bnd Pin).
have near P a : good P a -> `|a - bv P| <= eta by case/andP.
have tri P Q : P \in Ps -> Q \in Ps -> P != Q -> gam - eta *+ 2 <= `|f P - f Q|.
  move=> Pin Qin PQ; rewrite ler_subl_addr; apply: le_trans (gaps Pin Qin PQ) _.
  have -> : bv P - bv Q = (bv P - f P) + (f P - f Q) + (f Q - bv Q) by rewrite !subrKA.
  apply: le_trans (ler_norm_add _ _) _; apply: le_trans (ler_add (ler_norm_add _ _) (lexx _)) _.
  rewrite addrAC [X in X <= _]addrC ler_add2l mulr2n ler_add //; last exact: near (fg Q Qin).
  by rewrite distrC; exact: near (fg P Pin).
have finj : {in Ps &, injective f}.
  move=> P Q Pin Qin ff; apply/eqP/negPn/negP => PQ; have := tri P Q Pin Qin PQ.
  rewrite ff subrr normr0 => h; have := lt_le_trans (g0 (bpos P Pin)) h; by rewrite ltxx.
set Qa := [seq a <- as_ | E a != 0] in fin *.
have uQa : uniq Qa by rewrite filter_uniq.
have uf : uniq [seq f P | P <- Ps] by rewrite map_inj_in_uniq // (re_uniq rP).
have sub : {subset [seq f P | P <- Ps] <= Qa} by move=> a /mapP [P Pin ->]; exact: fin.
have szl : (size Ps <= size Qa)%N by rewrite -(size_map f); exact: uniq_leq_size.
have Ei a b : E a != 0 -> E a = E b -> a = b.
  move=> a0 ab; apply/eqP/negPn/negP => /oE; rewrite -ab; have [_ -> _ _] := fE a; by move/eqP: a0.
have [szQ mE] : size [seq E a | a <- Qa] = size Ps /\ forall Q, Q \in [seq E a | a <- Qa] -> minimal Q.
  apply: fine_minimal => //.
  - rewrite map_inj_in_uniq // => a b; rewrite mem_filter => /andP [h _] _; exact: Ei.
  - by move=> Q /mapP [a]; rewrite mem_filter => /andP [h _] ->.
  - move=> Q R /mapP [a _ ->] /mapP [b _ ->] ab; apply: oE; by apply: contraNneq ab => ->.
  - rewrite big_map big_filter -sE big_mkcond /=; apply: eq_bigr => a _; by case: eqP.
  by rewrite size_map.
rewrite size_map in szQ.
have [_ onto] := uniq_min_size uf sub (ltac:(by rewrite size_map szQ)).
have ain a : E a != 0 -> a \in as_.
  move=> a0; apply/negPn/negP => na; case/eqP: a0; rewrite -[E a]mul1mx -sE mulmx_suml big_seq big1 // => b bin.
  apply: oE; by apply: contraNneq na => <-.
have eig a m (W : 'M[C]_(N, m)) : M *m W = a *: W -> E a *m W = W by have [_ _ _ h] := fE a; exact: h.
have fromP a : E a != 0 -> exists2 P, P \in Ps & a = f P.
  move=> a0; have : a \in Qa by rewrite mem_filter a0 ain.
  by rewrite -onto => /mapP.
split.
  move=> a b u v u0 v0 Mu Mv.
  have Eu : E a != 0 by apply: contraNneq u0 => z; rewrite -(eig _ _ _ Mu) z mul0mx.
  have Ev : E b != 0 by apply: contraNneq v0 => z; rewrite -(eig _ _ _ Mv) z mul0mx.
  have [P Pin ->] := fromP a Eu; have [Q Qin ->] := fromP b Ev.
  case: (altP (P =P Q)) => [->//|PQ]; rewrite /np_isclose => cl.
  have bQ : `|f Q| <= bet + eta.
    rewrite -[f Q](subrK (bv Q)) addrC; apply: le_trans (ler_norm_add _ _) _; apply: ler_add; first exact: bnd.
    exact: near (fg Q Qin).
  have := le_lt_trans (le_trans (tri P Q Pin Qin PQ) (le_trans cl (ler_add (lexx _) (ler_wpmul2l rt0 bQ)))) tol.
  by rewrite ltxx.
move=> a m W MW inv; have EW := eig _ _ _ MW.
case: (altP (W =P 0)) => [->|W0]; [by left|right=> p X MX].
have Ea : E a != 0 by apply: contraNneq W0 => z; rewrite -EW z mul0mx.
have mEa : minimal (E a) by apply: mE; apply: map_f; rewrite mem_filter Ea ain.
have [c cW] := mEa _ (av_comm G imufs pL uL (W *m adj W)).
have avW : E a *m av n ms (W *m adj W) *m E a = av n ms (W *m adj W).
  rewrite /av mulmx_sumr mulmx_suml; apply: eq_bigr => i _.
  have [h1 h2 _ _] := fE a; have cEi := hp_comm (hE a) (ltn_ord i).
  have ELW : E a *m (nth 0 ms i *m W) = nth 0 ms i *m W by rewrite mulmxA -cEi -mulmxA EW.
  have -> : nth 0 ms i *m (W *m adj W) *m adj (nth 0 ms i) = (nth 0 ms i *m W) *m adj (nth 0 ms i *m W).
    by rewrite adjM !mulmxA.
  by rewrite mulmxA ELW -mulmxA -{1}h1 -adjM ELW.
have c0 : c != 0.
  apply/eqP => z; case/eqP: W0; apply: fro_eq0; apply: (mulfI (n_neq0 C G)); rewrite mulr0.
  have : \tr (av n ms (W *m adj W)) = 0 by rewrite -avW cW z scale0r mxtrace0.
  rewrite /av raddf_sum /= (eq_bigr (fun _ => fro W)) => [|i _]; first by rewrite sumr_const card_ord mulr_natl.
  have LL : adj (nth 0 ms i) *m nth 0 ms i = 1%:M := mulmx1C (uL (ltn_ord i)).
  by rewrite mxtrace_mulC [adj _ *m (_ *m _)]mulmxA LL mul1mx mxtrace_mulC.
have XE : X = \sum_(i < n) L i *m W *m (c^-1 *: (adj W *m adj (L i) *m X)).
  rewrite -{1}(eig _ _ _ MX) -[E a](scale1r) -(mulVf c0) -scalerA -cW avW -scalemxAl /av mulmx_suml scaler_sumr.
  by apply: eq_bigr => i _; rewrite -scalemxAr !mulmxA.
rewrite XE; apply: (big_ind (fun A : 'M[C]_(N, p) => exists Z, A = W *m Z)).
- by exists 0; rewrite mulmx0.
- by move=> A B [Z1 ->] [Z2 ->]; exists (Z1 + Z2); rewrite mulmxDr.
by move=> i _; have [Y ->] := inv i (ltn_ord i); exists (Y *m (c^-1 *: (adj W *m adj (L i) *m X))); rewrite mulmxA.
Qed.
End Separate.
End Length.
