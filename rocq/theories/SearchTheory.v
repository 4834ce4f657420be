(** Decomposition of a unitary projective representation into irreducible pieces by
    Hermitian projections, and existence of a full list of irreps. *)
From Coq Require Import Lia.
From mathcomp Require Import all_ssreflect all_algebra all_fingroup zify.
From Verif Require Import Py GroupModel GroupSpec GroupProofs RepSpec RepModel RepTheory IsoTheory
  IndexRepSpec IndexGroup MultTheory CompleteTheory RepProofs RandomModel RandomTheory SpectralTheory.
Import Order.TTheory GRing.Theory Num.Theory.
Set Implicit Arguments.
Unset Strict Implicit.
Unset Printing Implicit Defensive.
Local Open Scope ring_scope.

Section Herm.
Variables (C : numClosedFieldType) (N : nat).
Implicit Types P Q K X : 'M[C]_N.

(** Spectral projection of a Hermitian matrix. *)
Lemma spectral_proj K : adj K = K -> exists (as_ : seq C) (E : C -> 'M[C]_N),
  [/\ uniq as_, \sum_(a <- as_) E a = 1%:M,
      forall a, [/\ adj (E a) = E a, E a *m E a = E a, K *m E a = a *: E a & forall m (W : 'M[C]_(N, m)), K *m W = a *: W -> E a *m W = W],
      forall a b, a != b -> E a *m E b = 0 & forall X a, X *m K = K *m X -> X *m E a = E a *m X].
Proof.
move=> hK; have [evs [V [sz VV KV]]] := hermitian_spectral hK; have VV' := mulmx1C VV.
pose f a (j : 'I_N) := nth 0 evs j == a.
pose E a := V *m diag_mx (\row_j (f a j)%:R) *m adj V.
have KE a : K *m E a = a *: E a.
  rewrite /E !mulmxA KV -[V *m _ *m diag_mx _]mulmxA scalemxAl scalemxAr; congr (_ *m _ *m _).
  apply/matrixP => i j; rewrite mul_mx_diag !mxE; case: eqP => [->|_]; last by rewrite !mulr0n mul0r mulr0.
  by rewrite !mulr1n /f; case: eqP => [->|_]; rewrite ?mulr1 ?mulr0.
have EE a b : E a *m E b = if a == b then E a else 0.
  have -> : E a *m E b = V *m (diag_mx (\row_j (f a j)%:R) *m diag_mx (\row_j (f b j)%:R)) *m adj V.
    by rewrite /E !mulmxA -[V *m _ *m adj V *m V]mulmxA VV mulmx1.
  have -> : diag_mx (\row_j (f a j)%:R) *m diag_mx (\row_j (f b j)%:R) = if a == b then diag_mx (\row_j (f a j)%:R) else 0 :> 'M[C]_N.
    apply/matrixP => i j; rewrite mul_mx_diag; case: (altP (a =P b)) => [->|ab]; rewrite !mxE; case: (altP (i =P j)) => [->|_].
    - by rewrite !mulr1n; case: (f b j); rewrite ?mulr1 ?mulr0.
    - by rewrite !mulr0n mul0r.
    - rewrite !mulr1n /f; case: eqP => [->|_]; last by rewrite mul0r.
      by rewrite (negbTE ab) mulr0.
    by rewrite !mulr0n mul0r.
  by case: ifP => _; rewrite ?mulmx0 ?mul0mx.
exists (undup evs), E; split.
- exact: undup_uniq.
- rewrite /E -mulmx_suml -mulmx_sumr (_ : \sum_(a <- _) _ = 1%:M) ?mulmx1 //.
  apply/matrixP => i j; rewrite summxE mxE.
  have iin : nth 0 evs i \in undup evs by rewrite mem_undup mem_nth ?sz.
  rewrite (bigD1_seq (nth 0 evs i)) ?undup_uniq //= big1 => [|a ai].
    by rewrite !mxE /f eqxx addr0; case: eqP.
  by rewrite !mxE /f eq_sym (negbTE ai) mul0rn.
- move=> a; split=> //; last 1 first.
  + move=> m W KW; have : V *m (1%:M - diag_mx (\row_j (f a j)%:R)) *m adj V *m W = 0.
      have h : diag_mx (\row_j nth 0 evs j) *m (adj V *m W) = a *: (adj V *m W).
        have -> : diag_mx (\row_j nth 0 evs j) = adj V *m K *m V by rewrite -mulmxA KV mulmxA VV mul1mx.
        by rewrite -mulmxA [V *m _]mulmxA VV' mul1mx -mulmxA KW -scalemxAr.
      rewrite -!mulmxA (_ : _ *m (adj V *m W) = 0) ?mulmx0 //.
      move: (adj V *m W) h => Y h; apply/matrixP => i j; have := congr1 (fun Z : 'M[C]_(N, m) => Z i j) h.
      rewrite mul_diag_mx mulmxBl mul1mx mul_diag_mx !mxE /f; case: eqP => [_ _|na e]; first by rewrite mul1r subrr.
      by rewrite mul0r subr0; apply/eqP; move/eqP: e; rewrite -subr_eq0 -mulrBl mulf_eq0 subr_eq0 => /orP [/eqP /na|].
    by rewrite mulmxBr mulmx1 !mulmxBl VV' mul1mx => /eqP; rewrite subr_eq0 => /eqP <-.
  + rewrite /E !adjM adjK mulmxA; congr (_ *m _ *m _).
    apply/matrixP => i j; rewrite adjE !mxE eq_sym; case: eqP => [->|_]; last by rewrite !mulr0n conjC0.
    by rewrite !mulr1n conjC_nat.
  + by rewrite EE eqxx.
- by move=> a b /negbTE ab; rewrite EE ab.
- move=> X a XK; apply: (eigen_commute VV KV _ XK) => i j ij; by rewrite /f ij.
Qed.

(** A Hermitian idempotent comes from an isometry. *)
Lemma proj_isometry Q : adj Q = Q -> Q *m Q = Q -> exists k (T : 'M[C]_(N, k)), adj T *m T = 1%:M /\ T *m adj T = Q.
Proof.
move=> hQ QQ; have [evs [V [sz VV QV]]] := hermitian_spectral hQ; have VV' := mulmx1C VV.
pose f (j : 'I_N) := nth 0 evs j == 1.
have ev01 (j : 'I_N) : nth 0 evs j = (f j)%:R.
  have DE : diag_mx (\row_j nth 0 evs j) = adj V *m Q *m V by rewrite -mulmxA QV mulmxA VV mul1mx.
  have : diag_mx (\row_j nth 0 evs j) *m diag_mx (\row_j nth 0 evs j) = diag_mx (\row_j nth 0 evs j) :> 'M[C]_N.
    by rewrite DE !mulmxA -[adj V *m Q *m V *m adj V]mulmxA VV' mulmx1 -[adj V *m Q *m Q]mulmxA QQ.
  move=> /matrixP /(_ j j); rewrite mul_mx_diag !mxE eqxx !mulr1n => /eqP.
  rewrite -subr_eq0 -{3}[nth 0 evs j]mulr1 -mulrBr mulf_eq0 subr_eq0 /f => /orP [/eqP ->|/eqP ->]; rewrite ?eqxx //.
  by rewrite eq_sym oner_eq0.
pose T := columns [seq col j V | j <- enum 'I_N & f j].
exists _, T; split; first by apply: columns_orth => //; rewrite filter_uniq // enum_uniq.
rewrite /T columns_proj; have -> : diag_mx (\row_j (f j)%:R) = diag_mx (\row_j nth 0 evs j) :> 'M[C]_N.
  by congr diag_mx; apply/rowP => j; rewrite !mxE ev01.
by rewrite -QV -mulmxA VV' mulmx1.
Qed.
Lemma proj_trace0 Q : Q *m Q = Q -> Q != 0 -> \tr Q != 0.
Proof. by move=> QQ Q0; rewrite (MultTheory.idem_trace QQ) pnatr_eq0 mxrank_eq0. Qed.
End Herm.

Section Decompose.
Variables (C : numClosedFieldType) (n : nat) (mul : nat -> nat -> nat) (e : nat).
Hypothesis G : group_law n mul e.
Variable mu : nat -> nat -> C.
Hypothesis imufs : ifactor_system n mul e mu.
Variables (N : nat) (ms : seq 'M[C]_N).
Let L (i : nat) : 'M[C]_N := nth 0 ms i.
Hypotheses (pL : iprojrep n mul e mu L) (uL : iunitary n L).
Implicit Types P Q K X : 'M[C]_N.

Definition comm X : Prop := forall i, (i < n)%N -> L i *m X = X *m L i.
Definition av X : 'M[C]_N := \sum_(m < n) L m *m X *m adj (L m).
Lemma n_neq0 : n%:R != 0 :> C.
Proof. by rewrite pnatr_eq0 -lt0n; have := ig_e G; case: (n). Qed.
Lemma av_comm X : comm (av X).
Proof.
move=> i il; have [x <-] := ival_surj G il.
have -> : av X = avg [set: igT G]%G (fun g => L (ival g)) (fun g => L (ival g)) X.
  by rewrite /av /avg [RHS](eq_bigl predT) // => g; rewrite inE.
apply: (avg_intertwines (ifs_fs G imufs)); rewrite ?inE //.
- exact: (proj1 (iprojrepE G _ _) pL).
- exact: (proj1 (iprojrepE G _ _) pL).
- exact: (proj1 (iunitaryE G _) uL).
Qed.
Lemma av_id X : comm X -> av X = n%:R *: X.
Proof.
move=> cX; rewrite /av (eq_bigr (fun _ => X)) => [|m _]; first by rewrite sumr_const card_ord scaler_nat.
by rewrite cX // -mulmxA uL // mulmx1.
Qed.
Lemma commM X Y : comm X -> comm Y -> comm (X *m Y).
Proof. by move=> cX cY i il; rewrite mulmxA cX // -mulmxA cY // mulmxA. Qed.
Lemma commD X Y : comm X -> comm Y -> comm (X + Y).
Proof. by move=> cX cY i il; rewrite mulmxDr mulmxDl cX // cY. Qed.
Lemma commZ a X : comm X -> comm (a *: X).
Proof. by move=> cX i il; rewrite -scalemxAr -scalemxAl cX. Qed.
Lemma comm_adj X : comm X -> comm (adj X).
Proof.
move=> cX; have aL i : (i < n)%N -> adj (L i) *m L i = 1%:M by move=> il; apply: mulmx1C; exact: uL.
move=> i il; have := congr1 (fun Z => L i *m adj Z *m L i) (cX i il).
rewrite !adjM !mulmxA -[L i *m adj X *m _ *m _]mulmxA aL // mulmx1 uL // mul1mx => h.
exact: h.
Qed.
Lemma comm1 : comm 1%:M. Proof. by move=> i il; rewrite mulmx1 mul1mx. Qed.

Record hproj P : Prop := { hp_adj : adj P = P; hp_idem : P *m P = P; hp_comm : comm P }.
Definition minimal P : Prop := forall X, comm X -> exists c, P *m X *m P = c *: P.

Lemma split_herm P K : hproj P -> comm K -> adj K = K -> P *m K = K -> K *m P = K -> (forall c, K <> c *: P) ->
  exists Q, [/\ hproj Q, Q *m P = Q, P *m Q = Q, Q != 0 & Q != P].
Proof.
move=> [h1 h2 h3] cK hK PK KP nK; have [as_ [E [ua sE fE oE cE]]] := spectral_proj hK.
have PE a : P *m E a = E a *m P by apply: cE; rewrite PK KP.
have [/hasP [a _ a0]|] := boolP (has (fun a => E a *m P != 0) as_); last first.
  rewrite -all_predC => /allP z; case: (nK 0); rewrite scale0r -KP -[P]mul1mx -sE mulmx_suml big_seq big1 ?mulmx0 //.
  by move=> a ain; have := z a ain; rewrite /= negbK => /eqP.
have [ea ei ek _] := fE a.
have cEa : comm (E a) by move=> i il; apply: cE; exact: cK.
exists (E a *m P); split=> //.
- split; first by rewrite adjM h1 ea PE.
    by rewrite mulmxA -[E a *m P *m E a]mulmxA PE mulmxA ei -mulmxA h2.
  exact: commM.
- by rewrite -mulmxA h2.
- by rewrite mulmxA PE -mulmxA h2.
by apply/eqP => EP; case: (nK a); rewrite -KP -EP mulmxA ek scalemxAl.
Qed.

Lemma minimal_or_split P : hproj P -> minimal P \/ exists Q, [/\ hproj Q, Q *m P = Q, P *m Q = Q, Q != 0 & Q != P].
Proof.
move=> hP; have [h1 h2 h3] := hP.
case: (altP (P =P 0)) => [P0|P0]; first by left=> X _; exists 0; rewrite P0 !mul0mx scaler0.
have t0 := proj_trace0 h2 P0.
have [/forallP h|] := boolP [forall i, forall j, P *m av (delta_mx i j) *m P == (\tr (P *m av (delta_mx i j) *m P) / \tr P) *: P].
  left=> X cX; exists (n%:R^-1 * \sum_i \sum_j X i j * (\tr (P *m av (delta_mx i j) *m P) / \tr P)).
  have XE : X = n%:R^-1 *: \sum_i \sum_j X i j *: av (delta_mx i j).
    have -> : \sum_i \sum_j X i j *: av (delta_mx i j) = av X.
      rewrite {2}[X]matrix_sum_delta /av.
      under eq_bigr => i _ do under eq_bigr => j _ do rewrite scaler_sumr.
      under eq_bigr => i _ do rewrite exchange_big /=.
      rewrite exchange_big /=; apply: eq_bigr => m _; rewrite mulmx_sumr mulmx_suml; apply: eq_bigr => i _.
      by rewrite mulmx_sumr mulmx_suml; apply: eq_bigr => j _; rewrite -scalemxAr -scalemxAl.
    by rewrite av_id // scalerA mulVf ?n_neq0 // scale1r.
  rewrite {1}XE -scalemxAr -scalemxAl -scalerA; congr (_ *: _).
  rewrite mulmx_sumr mulmx_suml scaler_suml; apply: eq_bigr => i _.
  rewrite mulmx_sumr mulmx_suml scaler_suml; apply: eq_bigr => j _.
  rewrite -scalemxAr -scalemxAl -scalerA; congr (_ *: _).
  by have /forallP /(_ j) /eqP := h i.
rewrite negb_forall => /existsP [i]; rewrite negb_forall => /existsP [j nm]; right.
set Y := P *m av (delta_mx i j) *m P in nm.
have cY : comm Y by apply: commM => //; apply: commM => //; exact: av_comm.
have PY : P *m Y = Y by rewrite /Y !mulmxA h2.
have YP : Y *m P = Y by rewrite /Y -!mulmxA h2.
have caY := comm_adj cY.
have PaY : P *m adj Y = adj Y by rewrite -{1}h1 -adjM YP.
have aYP : adj Y *m P = adj Y by rewrite -{1}h1 -adjM PY.
pose K1 := Y + adj Y; pose K2 := 'i *: (Y - adj Y).
have nmul c : K1 = c *: P -> forall d, K2 <> d *: P.
  move=> e1 d e2; case/negP: nm; apply/eqP.
  have : exists x, Y = x *: P.
    exists (2%:R^-1 * (c - 'i * d)).
    have -> : Y = 2%:R^-1 *: (K1 - 'i *: K2).
      rewrite /K1 /K2 scalerA mulCii scaleN1r opprK addrACA subrr addr0 -mulr2n -scaler_nat scalerA mulVf ?scale1r //.
      by rewrite pnatr_eq0.
    by rewrite e1 e2 scalerA -scalerBl scalerA.
  case=> x xE; rewrite xE mxtraceZ mulfK //.
have [/eqP K1E|K1n] := boolP (K1 == (\tr K1 / \tr P) *: P).
  apply: (@split_herm P K2 hP) => [|||| c].
  - by apply: commZ; apply: commD => //; rewrite -scaleN1r; exact: commZ.
  - by rewrite /K2 adjZ conjCi adjB adjK scaleNr -scalerN opprB.
  - by rewrite /K2 -scalemxAr mulmxBr PY PaY.
  - by rewrite /K2 -scalemxAl mulmxBl YP aYP.
  exact: nmul K1E c.
apply: (@split_herm P K1 hP) => [|||| c E].
- exact: commD.
- by rewrite /K1 adjD adjK addrC.
- by rewrite /K1 mulmxDr PY PaY.
- by rewrite /K1 mulmxDl YP aYP.
by case/eqP: K1n; rewrite E mxtraceZ mulfK.
Qed.

(** A family of pairwise orthogonal minimal projections with sum P. *)
Record resolution P (Ps : seq 'M[C]_N) : Prop := {
  re_uniq : uniq Ps;
  re_hproj : forall Q, Q \in Ps -> [/\ hproj Q, Q != 0, minimal Q, Q *m P = Q & P *m Q = Q];
  re_orth : forall Q R, Q \in Ps -> R \in Ps -> Q != R -> Q *m R = 0;
  re_sum : \sum_(Q <- Ps) Q = P }.

Lemma resolution_cat P1 P2 Ps1 Ps2 : P1 *m P2 = 0 -> P2 *m P1 = 0 -> resolution P1 Ps1 -> resolution P2 Ps2 -> resolution (P1 + P2) (Ps1 ++ Ps2).
Proof.
move=> o12 o21 [u1 h1 r1 s1] [u2 h2 r2 s2].
have x12 Q R : Q \in Ps1 -> R \in Ps2 -> Q *m R = 0.
  by move=> /h1 [_ _ _ <- _] /h2 [_ _ _ _ <-]; rewrite -mulmxA [P1 *m _]mulmxA o12 mul0mx mulmx0.
have x21 Q R : Q \in Ps2 -> R \in Ps1 -> Q *m R = 0.
  by move=> /h2 [_ _ _ <- _] /h1 [_ _ _ _ <-]; rewrite -mulmxA [P2 *m _]mulmxA o21 mul0mx mulmx0.
split.
- rewrite cat_uniq u1 u2 andbT /=; apply/hasPn => Q Q2; apply/negP => Q1.
  by have [[_ qq _] nz _ _ _] := h1 Q Q1; rewrite -qq (x12 Q Q) ?eqxx in nz.
- move=> Q; rewrite mem_cat => /orP [/h1 [a b c d e']|/h2 [a b c d e']]; split=> //.
  + by rewrite mulmxDr d -{2}d -mulmxA o12 mulmx0 addr0.
  + by rewrite mulmxDl e' -{2}e' mulmxA o21 mul0mx addr0.
  + by rewrite mulmxDr d -{1}d -mulmxA o21 mulmx0 add0r.
  + by rewrite mulmxDl e' -{1}e' mulmxA o12 mul0mx add0r.
- move=> Q R; rewrite !mem_cat => /orP [q|q] /orP [r|r] qr; [exact: r1|exact: x12|exact: x21|exact: r2].
by rewrite big_cat s1 s2.
Qed.

Lemma resolution_exists P : hproj P -> exists Ps, resolution P Ps.
Proof.
have [m] := ubnP (\rank P); elim: m P => // m IH P rk hP.
case: (altP (P =P 0)) => [->|P0]; first by exists [::]; split=> //; rewrite big_nil.
have [h1 h2 h3] := hP.
case: (minimal_or_split hP) => [mP|[Q [hQ QP PQ Q0 QnP]]].
  exists [:: P]; split=> //; last by rewrite big_seq1.
    by move=> Q; rewrite inE => /eqP ->.
  by move=> Q R; rewrite !inE => /eqP -> /eqP ->; rewrite eqxx.
have [q1 q2 q3] := hQ.
have hR : hproj (P - Q).
  split; first by rewrite adjB h1 q1.
    by rewrite mulmxBl !mulmxBr h2 q2 QP PQ subrr subr0.
  by rewrite -scaleN1r; apply: commD => //; exact: commZ.
have rsum : \rank P = (\rank Q + \rank (P - Q)%R)%N.
  apply/eqP; rewrite -(eqr_nat C) natrD -!MultTheory.idem_trace ?(hp_idem hR) //.
  by rewrite raddfB /= addrC subrK.
have rQ : (0 < \rank Q)%N by rewrite lt0n mxrank_eq0.
have rR : (0 < \rank (P - Q)%R)%N by rewrite lt0n mxrank_eq0 subr_eq0 eq_sym.
have lt1 : (\rank Q < m)%N by move: rk; rewrite rsum; move: rQ rR; move: (\rank Q) (\rank (P - Q)%R); lia.
have lt2 : (\rank (P - Q)%R < m)%N by move: rk; rewrite rsum; move: rQ rR; move: (\rank Q) (\rank (P - Q)%R); lia.
have [Ps1 r1] := IH Q lt1 hQ; have [Ps2 r2] := IH (P - Q) lt2 hR.
exists (Ps1 ++ Ps2); rewrite -[P](addrNK Q) addrC; apply: resolution_cat => //.
  by rewrite mulmxBr QP q2 subrr.
by rewrite mulmxBl PQ q2 subrr.
Qed.

Lemma hproj_inv P k (T : 'M[C]_(N, k)) : hproj P -> adj T *m T = 1%:M -> T *m adj T = P -> inv_isometry n ms T.
Proof. by move=> [_ _ cP] TT TP; split=> // i il; rewrite TP; exact: cP. Qed.

(** The representation on the range of a minimal projection has character norm one. *)
Lemma minimal_norm1 P k (T : 'M[C]_(N, k)) : hproj P -> P != 0 -> minimal P -> adj T *m T = 1%:M -> T *m adj T = P ->
  let D i := adj T *m L i *m T in icip n D D = n%:R.
Proof.
move=> hP P0 mP TT TP D; have iT := hproj_inv hP TT TP.
have k0 : k%:R != 0 :> C.
  rewrite pnatr_eq0; apply/eqP => k0; case/eqP: P0; rewrite -TP.
  by clear TT TP iT D; subst k; rewrite thinmx0 mul0mx.
have cT : #|[set: igT G]| = n by rewrite cardsT ival_card.
rewrite (icipE G) cipE.
have avE (X : 'M[C]_k) : avg [set: igT G]%G (fun g => D (ival g)) (fun g => D (ival g)) X = (n%:R * \tr X / k%:R) *: 1%:M.
  have pg := proj1 (iunitaryE G _) (sub_unitary uL iT).
  have e1 : avg [set: igT G]%G (fun g => D (ival g)) (fun g => D (ival g)) X = adj T *m av (T *m X *m adj T) *m T.
    rewrite /avg /av (eq_bigl predT) => [|g]; last by rewrite inE.
    rewrite mulmx_sumr mulmx_suml; apply: eq_bigr => m _.
    by rewrite /D !adjM adjK !mulmxA.
  have [c cE] := mP _ (av_comm (T *m X *m adj T)).
  have e2 : adj T *m av (T *m X *m adj T) *m T = c *: 1%:M.
    have : adj T *m (P *m av (T *m X *m adj T) *m P) *m T = c *: 1%:M.
      by rewrite cE -scalemxAr -scalemxAl -TP !mulmxA TT mul1mx TT.
    by rewrite -TP !mulmxA TT mul1mx -!mulmxA TT mulmx1.
  rewrite e1 e2; congr (_ *: _); apply: (mulIf k0); rewrite mulfVK //.
  have <- : \tr (c *: 1%:M : 'M[C]_k) = c * k%:R by rewrite mxtraceZ mxtrace1.
  rewrite -e2 -e1 /avg raddf_sum /= (eq_bigr (fun _ => \tr X)) => [|g _].
    by rewrite sumr_const cT mulr_natl.
  rewrite mxtrace_mulC mulmxA; have := pg g; rewrite inE => /(_ isT) /mulmx1C ->; by rewrite mul1mx.
rewrite (eq_bigr (fun _ : 'I_k => n%:R / k%:R)) => [|i _].
  by rewrite sumr_const card_ord -mulr_natr mulfVK // conjC_nat.
rewrite (bigD1 i) //= big1 => [|j ji].
  rewrite avE !mxE eqxx mulr1 addr0 (_ : \tr _ = 1) ?mulr1 //.
  rewrite /mxtrace (bigD1 i) //= !mxE !eqxx big1 ?addr0 // => l li; by rewrite !mxE (negbTE li).
rewrite avE (_ : \tr _ = 0) ?mulr0 ?mul0r ?scale0r ?mxE // /mxtrace big1 // => l _.
rewrite mxE; case: eqP => // ->; by rewrite eq_sym (negbTE ji).
Qed.

(** Characters. *)
Lemma sub_char P k (T : 'M[C]_(N, k)) i : T *m adj T = P -> \tr (adj T *m L i *m T) = \tr (P *m L i).
Proof. by move=> <-; rewrite mxtrace_mulC mulmxA. Qed.

Definition carries (P : 'M[C]_N) (A : arr C) : Prop :=
  exists T : 'M[C]_(N, adim A), [/\ adj T *m T = 1%:M, T *m adj T = P & forall i, (i < n)%N -> aget A i = adj T *m L i *m T].
Lemma carriers Ps : (forall P, P \in Ps -> hproj P) ->
  exists As : seq (arr C), size As = size Ps /\ forall k, (k < size Ps)%N -> carries (nth 0 Ps k) (nth (Arr (adim := 0) [::]) As k).
Proof.
elim: Ps => [|P Ps IH] h; first by exists [::].
have [Q Qin|As [sA cA]] := IH; first by apply: h; rewrite inE Qin orbT.
have [h1 h2 _] := h P (mem_head _ _); have [d [T [TT TP]]] := proj_isometry h1 h2.
exists (@Arr C d [seq adj T *m L i *m T | i <- iota 0 n] :: As); split=> [|[|k] kl] /=; first by rewrite sA.
  exists T; split=> // i il; by rewrite /aget /= (nth_map 0%N) ?size_iota // nth_iota.
exact: cA.
Qed.
Lemma carries_rep P A : hproj P -> carries P A -> iprojrep n mul e mu (aget A) /\ iunitary n (aget A).
Proof.
move=> hP [T [TT TP AE]]; have iT := hproj_inv hP TT TP.
have [p1 p2] := sub_rep pL iT; have u := sub_unitary uL iT; have en := ig_e G; split.
  by split=> [|i j il jl]; rewrite !AE ?p1 ?p2 //; exact: (ig_closed G (Ordinal il) (Ordinal jl)).
by move=> i il; rewrite AE //; exact: u.
Qed.
Lemma carries_char P A i : carries P A -> (i < n)%N -> \tr (aget A i) = \tr (P *m L i).
Proof. by move=> [T [TT TP AE]] il; rewrite AE // (sub_char _ TP). Qed.
Lemma carries_norm1 P A : hproj P -> P != 0 -> minimal P -> carries P A -> icip n (aget A) (aget A) = n%:R.
Proof.
move=> hP P0 mP [T [TT TP AE]]; rewrite -(minimal_norm1 hP P0 mP TT TP).
by apply: eq_bigr => i _; rewrite AE.
Qed.
Definition pcip (P : 'M[C]_N) d (B : nat -> 'M[C]_d) : C := \sum_(i < n) (\tr (P *m L i))^* * \tr (B i).
Lemma carries_icip P A d (B : nat -> 'M[C]_d) : carries P A -> icip n (aget A) B = pcip P B.
Proof. by move=> cA; apply: eq_bigr => i _; rewrite (carries_char cA). Qed.
End Decompose.

Section Exists.
Variables (C : numClosedFieldType) (n : nat) (mul : nat -> nat -> nat) (e : nat).
Hypothesis G : group_law n mul e.
Variable mu : nat -> nat -> C.
Hypothesis imufs : ifactor_system n mul e mu.
Variable (ms : seq 'M[C]_n).
Let L (i : nat) : 'M[C]_n := nth 0 ms i.
Hypotheses (pL : iprojrep n mul e mu L) (uL : iunitary n L).
Hypothesis trL : forall i, (i < n)%N -> \tr (L i) = if i == e then n%:R else 0.
Local Notation arr0 := (Arr (adim := 0) [::]).

Lemma irreps_of_regular : exists As : seq (arr C),
  complete_irreps n mul e mu (size As) (fun k => aget (nth arr0 As k)).
Proof.
have hp1 : hproj n ms 1%:M by split; [exact: adj1|rewrite mulmx1|exact: comm1].
have [Ps [uP hP oP sP]] := resolution_exists G imufs pL uL hp1.
pose chi (P : 'M[C]_n) : 'rV[C]_n := \row_i \tr (P *m L i).
pose Ps' := [seq nth 0 Ps (index c [seq chi P | P <- Ps]) | c <- undup [seq chi P | P <- Ps]].
have sub c : c \in [seq chi P | P <- Ps] -> nth 0 Ps (index c [seq chi P | P <- Ps]) \in Ps /\ chi (nth 0 Ps (index c [seq chi P | P <- Ps])) = c.
  move=> cin; have il : (index c [seq chi P | P <- Ps] < size Ps)%N by rewrite -(size_map chi) index_mem.
  by split; [exact: mem_nth|rewrite -(nth_map 0 0 chi) // nth_index].
have s1 P : P \in Ps' -> P \in Ps.
  by move=> /mapP [c]; rewrite mem_undup => /sub [h _] ->.
have cE : [seq chi P | P <- Ps'] = undup [seq chi P | P <- Ps].
  rewrite -map_comp -[RHS]map_id; apply/eq_in_map => c; rewrite mem_undup => /sub [_ h]; exact: h.
have s2 P : P \in Ps -> exists2 P', P' \in Ps' & chi P' = chi P.
  move=> Pin; have : chi P \in [seq chi P | P <- Ps'] by rewrite cE mem_undup map_f.
  by move=> /mapP [P' h ->]; exists P'.
have [As [sA cA]] := @carriers _ n _ ms Ps' (fun P h => let: And5 a _ _ _ _ := hP P (s1 P h) in a).
exists As.
have fA k : (k < size As)%N -> let A := nth arr0 As k in
   [/\ iprojrep n mul e mu (aget A), iunitary n (aget A), icip n (aget A) (aget A) = n%:R & carries n ms (nth 0 Ps' k) A].
  rewrite sA => kl /=; have [a b c _ _] := hP _ (s1 _ (mem_nth 0 kl)); have cr := cA k kl.
  have [p u] := carries_rep G pL uL a cr; split=> //; exact: (carries_norm1 G imufs pL uL a b c cr).
apply: (complete_from_orth G imufs).
- by move=> k /fA [].
- by move=> k /fA [].
- move=> k l kl ll; have [p1 u1 n1 c1] := fA k kl; have [p2 u2 n2 c2] := fA l ll.
  case: (altP (k =P l)) => [<-//|kl'].
  case: (icip_dich G imufs p1 u1 n1 p2 u2 n2) => -[// _ eq].
  case/negP: kl'; rewrite sA in kl ll.
  have : uniq [seq chi P | P <- Ps'] by rewrite cE undup_uniq.
  move=> uq; rewrite -(nth_uniq 0 _ _ uq) ?(size_map chi) // !(nth_map (0 : 'M[C]_n) 0 chi) //; apply/eqP/rowP => i; rewrite !mxE.
  rewrite -(carries_char c1) // -(carries_char c2) //.
  have [x <-] := ival_surj G (ltn_ord i).
  by rewrite (equivalent_char (proj1 (iequivalentE G _ _) eq) (x := x)) ?inE.
move=> m B m0 pB.
have trs (i : nat) : (i < n)%N -> \sum_(P <- Ps) (\tr (P *m nth 0 ms i))^* = if i == e then n%:R else 0.
  move=> il; rewrite -rmorph_sum -raddf_sum -mulmx_suml sP mul1mx /= (trL il); case: eqP => _; rewrite ?conjC_nat ?conjC0 //.
have tot : \sum_(P <- Ps) pcip n ms P B = n%:R * m%:R.
  rewrite exchange_big /= (bigD1 (Ordinal (ig_e G))) //= [X in _ + X]big1 => [|i ie].
    rewrite -mulr_suml trs ?(ig_e G) // eqxx (proj1 pB) mxtrace1 addr0 //.
  rewrite -mulr_suml trs // (_ : (i == e :> nat) = false) ?mul0r //.
  by apply/negbTE; move: ie; apply: contraNN => /eqP h; apply/eqP/val_inj.
have [/hasP [P Pin nz]|] := boolP (has (fun P => pcip n ms P B != 0) Ps); last first.
  rewrite -all_predC => /allP z; have /eqP := tot; rewrite big_seq big1 => [|P /z /=]; last by rewrite negbK => /eqP.
  by rewrite -natrM eq_sym pnatr_eq0 muln_eq0 => /orP [|] /eqP h; [have := ig_e G; rewrite h|rewrite h in m0].
have [P' P'in cc] := s2 P Pin; have [k kl kE] := nthP 0 P'in.
exists k; rewrite sA; split=> //; rewrite (carries_icip _ (cA k kl)) kE.
rewrite (_ : pcip n ms P' B = pcip n ms P B) //; apply: eq_bigr => i _; congr (_^* * _).
by move/rowP: cc => /(_ i); rewrite !mxE.
Qed.
End Exists.
