(** Existence of an orthonormal eigenbasis for a Hermitian matrix: the specification assumed
    of np.linalg.eigh can be met. *)
From Coq Require Import Field.
From mathcomp Require Import all_ssreflect all_algebra.
From Verif Require Import RepSpec FieldTac RepTheory.
Import Order.TTheory GRing.Theory Num.Theory.
Set Implicit Arguments.
Unset Strict Implicit.
Unset Printing Implicit Defensive.
Local Open Scope ring_scope.

Section Spectral.
Variable C : numClosedFieldType.
Add Field Fs : (fth C).

Definition dot n (u v : 'cV[C]_n) : C := (adj u *m v) 0 0.
Lemma dotE n (u v : 'cV[C]_n) : adj u *m v = (dot u v)%:M.
Proof. by apply/matrixP => i j; rewrite !ord1 [RHS]mxE eqxx. Qed.
Lemma dot_conj n (u v : 'cV[C]_n) : (dot u v)^* = dot v u.
Proof. by rewrite /dot -adjE adjM adjK. Qed.
Lemma dot_sum n (u v : 'cV[C]_n) : dot u v = \sum_i (u i 0)^* * v i 0.
Proof. by rewrite /dot mxE; apply: eq_bigr => i _; rewrite adjE. Qed.
Lemma dot_ge0 n (u : 'cV[C]_n) : 0 <= dot u u.
Proof. by rewrite dot_sum sumr_ge0 // => i _; rewrite mulrC -normCK exprn_ge0. Qed.
Lemma dot_eq0 n (u : 'cV[C]_n) : dot u u = 0 -> u = 0.
Proof.
rewrite dot_sum => /eqP; rewrite psumr_eq0 => [/allP h|i _]; last by rewrite mulrC -normCK exprn_ge0.
apply/matrixP => i j; rewrite ord1 mxE; apply/eqP.
by have := h i (mem_index_enum i); rewrite /= mulf_eq0 conjC_eq0 orbb.
Qed.
Lemma dotDl n (u v w : 'cV[C]_n) : dot (u + v) w = dot u w + dot v w.
Proof. by rewrite /dot adjD mulmxDl mxE. Qed.
Lemma dotDr n (u v w : 'cV[C]_n) : dot w (u + v) = dot w u + dot w v.
Proof. by rewrite /dot mulmxDr mxE. Qed.
Lemma dotNl n (u w : 'cV[C]_n) : dot (- u) w = - dot u w.
Proof. by rewrite -scaleN1r /dot adjZ -scalemxAl mxE rmorphN rmorph1 mulN1r. Qed.
Lemma dotNr n (u w : 'cV[C]_n) : dot w (- u) = - dot w u.
Proof. by rewrite /dot mulmxN mxE. Qed.
Lemma dotZl n a (u w : 'cV[C]_n) : dot (a *: u) w = a^* * dot u w.
Proof. by rewrite /dot adjZ -scalemxAl mxE. Qed.
Lemma dotZr n a (u w : 'cV[C]_n) : dot w (a *: u) = a * dot w u.
Proof. by rewrite /dot -scalemxAr mxE. Qed.

(** Reflection exchanging two unit vectors with real product. *)
Lemma householder n (u v : 'cV[C]_n) : dot u u = 1 -> dot v v = 1 -> dot u v = dot v u ->
  exists U : 'M[C]_n, adj U *m U = 1%:M /\ U *m u = v.
Proof.
move=> uu vv uv; case: (u =P v) => [->|/eqP ne].
  by exists 1%:M; rewrite adj1 mulmx1 mul1mx.
pose w := v - u; pose a := dot w w.
have a0 : a != 0 by apply: contra_neq ne => /dot_eq0 /eqP; rewrite subr_eq0 eq_sym => /eqP.
have aE : a = (1 + 1) * (1 - dot u v).
  by rewrite /a /w !dotDl !dotDr !dotNl !dotNr uu vv -uv opprK; to_field C; ring.
have ac : a^* = a by rewrite /a dot_conj.
have b0 : 1 - dot u v != 0 by apply: contraNneq a0 => b0; rewrite aE b0 mulr0.
pose c : C := (1 + 1) / a; have cc : c^* = c by rewrite /c rmorphM fmorphV rmorphD rmorph1 ac.
have WW : (w *m adj w) *m (w *m adj w) = a *: (w *m adj w).
  by rewrite mulmxA -[w *m adj w *m w]mulmxA dotE -/a -scalemx1 -scalemxAr mulmx1 -scalemxAl.
exists (1%:M - c *: (w *m adj w)); split.
  rewrite adjB adj1 adjZ cc adjM adjK mulmxBl mul1mx mulmxBr mulmx1 -scalemxAl -scalemxAr WW !scalerA.
  have -> : c * c * a = c + c by have h : a <> 0 := elimN eqP a0; rewrite /c; to_field C; field.
  rewrite scalerDl; set Y := c *: _; have -> : Y - (Y + Y) = - Y by rewrite opprD addrA subrr add0r.
  by rewrite opprK subrK.
rewrite mulmxBl mul1mx -scalemxAl -mulmxA dotE -scalemx1 -scalemxAr mulmx1 scalerA.
have -> : c * dot w u = - 1.
  rewrite /c /w dotDl dotNl uu -uv aE; have h : 1 - dot u v <> 0 := elimN eqP b0.
  have h2 : 1 + 1 <> 0 :> C by apply/eqP; rewrite (_ : 1 + 1 = 2%:R) ?pnatr_eq0 // mulr2n.
  by to_field C; field.
by rewrite scaleN1r opprK /w addrC subrK.
Qed.

Lemma unit_eigenvector n (M : 'M[C]_n.+1) : exists a v,
  [/\ M *m v = a *: v, dot v v = 1 & (v 0 0)^* = v 0 0].
Proof.
have [a ra] : exists a, root (char_poly M^T) a by apply/closed_rootP; rewrite size_char_poly.
have /eigenvalueP [r rM r0] : eigenvalue M^T a by rewrite eigenvalue_root_char.
pose v := r^T; have v0 : v != 0 by apply: contraNneq r0 => /(congr1 trmx); rewrite trmxK trmx0 => ->.
have Mv : M *m v = a *: v by rewrite /v -[M]trmxK -trmx_mul rM linearZ.
have d0 : 0 < dot v v by rewrite lt_def dot_ge0 andbT; apply: contra_neq v0 => /dot_eq0.
pose s := sqrtC (dot v v); have s0 : 0 < s by rewrite sqrtC_gt0.
have ss : s * s^* = dot v v by rewrite (CrealP (gtr0_real s0)) -expr2 sqrtCK.
have sn : s != 0 by rewrite gt_eqF.
pose p : C := if v 0 0 == 0 then 1 else (v 0 0)^* / `|v 0 0|.
have pp : p^* * p = 1.
  rewrite mulrC -normCK /p; case: eqP => [_|/eqP w0]; first by rewrite normr1 expr1n.
  by rewrite normrM norm_conjC normrV ?unitfE ?normr_eq0 // normr_id divff ?expr1n // normr_eq0.
exists a, ((p / s) *: v); split.
- by rewrite -scalemxAr Mv !scalerA mulrC.
- rewrite dotZl dotZr rmorphM /= fmorphV /= -ss.
  have h1 : s <> 0 by exact/eqP.
  have h2 : s^* <> 0 by apply/eqP; rewrite conjC_eq0.
  transitivity (p^* * p * (s^* / s^* * (s / s))); first by to_field C; ring.
  by rewrite pp !divff ?mulr1 // conjC_eq0.
- rewrite mxE !rmorphM fmorphV (CrealP (gtr0_real s0)) /p; case: eqP => [->|_]; first by rewrite conjC0 !mulr0.
  rewrite rmorphM /= conjCK fmorphV /= (CrealP (normr_real _)).
  by to_field C; ring.
Qed.

Lemma hermitian_spectral n (M : 'M[C]_n) : adj M = M -> exists (evs : seq C) (V : 'M[C]_n),
  [/\ size evs = n, adj V *m V = 1%:M & M *m V = V *m diag_mx (\row_j nth 0 evs j)].
Proof.
elim: n M => [|n IH] M hM; first by exists [::], 1%:M; split=> //; [rewrite adj1 mulmx1|rewrite [LHS]flatmx0 [RHS]flatmx0].
have [a [v [Mv vv vr]]] := unit_eigenvector M.
pose e0 : 'cV[C]_n.+1 := delta_mx 0 0.
have de (w : 'cV[C]_n.+1) : dot e0 w = w 0 0.
  by rewrite dot_sum (bigD1 0) //= big1 => [|i i0]; rewrite mxE ?eqxx ?(negbTE i0) ?conjC0 ?mul0r // conjC1 mul1r addr0.
have ee : dot e0 e0 = 1 by rewrite de mxE !eqxx.
have [U [UU Ue]] := householder ee vv (etrans (de v) (etrans (esym vr) (etrans (congr1 conjC (esym (de v))) (dot_conj _ _)))).
have UU' := mulmx1C UU.
pose M1 : 'M[C]_n.+1 := adj U *m M *m U.
have hM1 : adj M1 = M1 by rewrite /M1 !adjM adjK hM mulmxA.
have M1e : M1 *m e0 = a *: e0.
  by rewrite /M1 -mulmxA Ue -mulmxA Mv -scalemxAr -Ue mulmxA UU mul1mx.
have MU : M *m U = U *m M1 by rewrite /M1 !mulmxA UU' mul1mx.
clearbody M1.
pose M2 := drsubmx (M1 : 'M[C]_(1 + n)).
have hM2 : adj M2 = M2.
  apply/matrixP => i j; rewrite adjE /M2 /drsubmx /dsubmx /rsubmx !mxE.
  have := congr1 (fun X : 'M[C]_n.+1 => X (rshift 1 i) (rshift 1 j)) hM1.
  by rewrite adjE.
have c0 (i : 'I_(1 + n)) : M1 i 0 = a * (i == 0)%:R.
  have := congr1 (fun X : 'cV[C]_(1 + n) => X i 0) M1e; rewrite -colE mxE => ->; by rewrite !mxE eqxx andbT.
have l0 : lshift n 0 = 0 :> 'I_(1 + n) by exact: val_inj.
have M1b : M1 = block_mx (a%:M : 'M[C]_1) 0 0 M2 :> 'M[C]_(1 + n).
  rewrite -[LHS](@submxK _ 1 n 1 n); congr block_mx; apply/matrixP => i j; rewrite !mxE ?ord1 /=.
  - by rewrite !l0 c0 eqxx mulr1.
  - by rewrite -(congr1 (fun X : 'M[C]_(1 + n) => X (lshift n 0) (rshift 1 j)) hM1) adjE !l0 c0 mulr0 conjC0.
  - by rewrite l0 c0 mulr0.
have [evs [V [sz VV MV]]] := IH M2 hM2.
pose B : 'M[C]_(1 + n) := block_mx 1%:M 0 0 V.
have aB : adj B = block_mx 1%:M 0 0 (adj V) by rewrite /adj map_block_mx tr_block_mx !map_mx0 !trmx0 map_mx1 trmx1.
have BB : adj B *m B = 1%:M.
  by rewrite aB mulmx_block !mul0mx !mulmx0 mulmx1 !addr0 add0r VV -scalar_mx_block.
pose D : 'M[C]_(1 + n) := block_mx a%:M 0 0 (diag_mx (\row_j nth 0 evs j)).
have BD : (block_mx (a%:M : 'M[C]_1) 0 0 M2 : 'M[C]_(1 + n)) *m B = B *m D.
  by rewrite !mulmx_block !mul0mx !mulmx0 !mulmx1 !mul1mx !addr0 !add0r MV.
have DE : diag_mx (\row_j nth 0 (a :: evs) j) = D.
  rewrite -[LHS](@submxK _ 1 n 1 n); congr block_mx; apply/matrixP => i j; rewrite !mxE ?ord1 //=.
rewrite -M1b in BD; clearbody B D.
exists (a :: evs), (U *m (B : 'M[C]_n.+1)); split; first by rewrite /= sz.
- by rewrite adjM mulmxA -[_ *m adj U *m U]mulmxA UU mulmx1; exact: BB.
- rewrite DE mulmxA MU -mulmxA -[RHS]mulmxA; congr (_ *m _); exact: BD.
Qed.
End Spectral.
