(** Irreducibility and equivalence of co-representations built from irreducible representations
    of the linear subgroup. *)
From mathcomp Require Import all_ssreflect all_algebra all_fingroup.
From Verif Require Import RepSpec RepModel RepTheory CorepModel CorepSpec CorepTheory CorepKinds.
Import Order.TTheory GRing.Theory Num.Theory GroupScope.
Set Implicit Arguments.
Unset Strict Implicit.
Unset Printing Implicit Defensive.
Local Open Scope ring_scope.

(** Kernels of matrices acting on columns. *)
Section Kernel.
Variable F : fieldType.
Lemma right_ker d m (S : 'M[F]_(d, m)) : exists N : 'M[F]_m, S *m N = 0 /\
  (forall p (Z : 'M[F]_(m, p)), S *m Z = 0 -> exists Y, Z = N *m Y) /\ (N = 0 -> exists B, B *m S = 1%:M).
Proof.
exists (kermx S^T)^T; split; first by apply: trmx_inj; rewrite trmx_mul trmxK trmx0 mulmx_ker.
split=> [p Z h|N0].
  have /sub_kermxP /submxP [Y e] : Z^T *m S^T = 0 by rewrite -trmx_mul h trmx0.
  by exists Y^T; apply: trmx_inj; rewrite trmx_mul !trmxK.
have : row_free S^T by rewrite -kermx_eq0; apply/eqP; apply: trmx_inj; rewrite N0 trmx0.
by case/row_freeP => B e; exists B^T; apply: trmx_inj; rewrite trmx_mul trmxK e trmx1.
Qed.
Lemma factor_through d1 d2 m (W1 : 'M[F]_(d1, m)) (W2 : 'M[F]_(d2, m)) :
  (forall p (Z : 'M[F]_(m, p)), W2 *m Z = 0 -> W1 *m Z = 0) -> exists T, W1 = T *m W2.
Proof. by move=> h; apply/submxP; rewrite submxE h // mulmx_coker. Qed.
End Kernel.

Section Irr.
Variables (C : numClosedFieldType) (gT : finGroupType) (H : {group gT}) (w : gT -> gT -> bool).
Hypothesis wc : forall x y z, w x (y * z)%g (+) w y z = w (x * y)%g z (+) w x y.
Hypothesis w1 : w 1%g 1%g = false.
Hypothesis half : forall x y, ((x * y)%g \in H) = ((x \in H) == (y \in H)).
Let mu x y : C := (-1) ^+ w x y.
Variable a : gT.
Hypothesis aH : a \notin H.
Let s := (a * a)%g.
Local Notation f := (f w a).
Local Notation cj := (cj H).
Let fs : factor_system mu := sign_fs C wc w1.

Definition cirr d (F : gT -> 'M[C]_d) : Prop := (0 < d)%N /\
  forall m (W : 'M[C]_(d, m)), (forall x, exists Y, F x *m cj x W = W *m Y) -> W = 0 \/ exists V, W *m V = 1%:M.
Definition cequiv d1 d2 (F1 : gT -> 'M[C]_d1) (F2 : gT -> 'M[C]_d2) : Prop :=
  exists (T : 'M[C]_(d1, d2)) (T' : 'M[C]_(d2, d1)),
    [/\ T *m T' = 1%:M, T' *m T = 1%:M & forall x, F1 x *m cj x T = T *m F2 x].
Definition clink d1 d2 (F1 : gT -> 'M[C]_d1) (F2 : gT -> 'M[C]_d2) (S : 'M[C]_(d1, d2)) : Prop :=
  forall x, F1 x *m cj x S = S *m F2 x.

Lemma cj0 x m n : cj x (0 : 'M[C]_(m, n)) = 0.
Proof. by rewrite /CorepTheory.cj /conj_if; case: (x \notin H); rewrite ?map_mx0. Qed.
Lemma cjH x m n (A : 'M[C]_(m, n)) : x \in H -> cj x A = A.
Proof. by rewrite /CorepTheory.cj => ->. Qed.
Lemma cja m n (A : 'M[C]_(m, n)) : cj a A = conj_mx A.
Proof. by rewrite /CorepTheory.cj aH. Qed.

Lemma schur_co d1 d2 (X : gT -> 'M[C]_d1) (F : gT -> 'M[C]_d2) S :
  cirr X -> cirr F -> clink X F S -> S != 0 -> cequiv X F.
Proof.
move=> [_ iX] [_ iF] h S0; have [|z|[V SV]] := iX _ S; first by move=> x; exists (F x).
  by rewrite z eqxx in S0.
have [N [SN [ker inj]]] := right_ker S.
have [x||[V' NV]] := iF _ N.
- apply: ker; rewrite mulmxA -h -mulmxA -cjM SN cj0 mulmx0 //.
- move=> /inj [B BS]; exists S, V; split=> //.
  by rewrite -[V]mul1mx -BS -[B *m S *m V]mulmxA SV mulmx1.
by move: S0; rewrite -[S]mulmx1 -NV mulmxA SN mul0mx eqxx.
Qed.
(** The same for the linear subgroup. *)
Lemma schur_lin d1 d2 (X : gT -> 'M[C]_d1) (F : gT -> 'M[C]_d2) S :
  irreducible H X -> irreducible H F -> (forall x, x \in H -> X x *m S = S *m F x) -> S != 0 -> equivalent H X F.
Proof.
move=> [_ iX] [_ iF] h S0; have [|z|[V SV]] := iX _ S; first by move=> x hx; exists (F x); exact: h.
  by rewrite z eqxx in S0.
have [N [SN [ker inj]]] := right_ker S.
have [x hx||[V' NV]] := iF _ N.
- by apply: ker; rewrite mulmxA -h // -mulmxA SN mulmx0.
- move=> /inj [B BS]; exists S, V; split=> //.
  by rewrite -[V]mul1mx -BS -[B *m S *m V]mulmxA SV mulmx1.
by move: S0; rewrite -[S]mulmx1 -NV mulmxA SN mul0mx eqxx.
Qed.

Section Average.
Variables (d1 d2 : nat) (X : gT -> 'M[C]_d1) (F : gT -> 'M[C]_d2).
Hypotheses (lX : forall x y, law_at H w X x y) (lF : forall x y, law_at H w F x y) (F1 : F 1%g = 1%:M).
Lemma law_unit x : F x \in unitmx.
Proof.
have := lF x x^-1%g; rewrite /law_at mulgV F1 => /(congr1 (fun M => ((-1) ^+ w x x^-1%g : C) *: M)).
by rewrite scalerA sgC_sq scale1r scalemxAr => /mulmx1_unit [].
Qed.
Lemma link_mul S x y : X x *m cj x S = S *m F x -> X y *m cj y S = S *m F y ->
  X (x * y)%g *m cj (x * y)%g S = S *m F (x * y)%g.
Proof.
move=> hx hy; apply: (scalerI (sgC_neq0 C (w x y))).
rewrite scalemxAl scalemxAr -[_ *: X _](lX x y) -[_ *: F _](lF x y) -mulmxA -(cjcj half) -cjM hy.
by rewrite cjM !mulmxA hx.
Qed.
Let G := invmx (F a).
Let sym (T : 'M[C]_(d1, d2)) := T + X a *m conj_mx T *m G.
Lemma conjG : conj_mx (F a) *m conj_mx G = 1%:M.
Proof. by rewrite -conj_mxM mulmxV ?law_unit // conj_mx1. Qed.
Lemma sym_link T : (forall u, u \in H -> X u *m T = T *m F u) -> clink X F (sym T).
Proof.
move=> hT.
have lin u : u \in H -> X u *m cj u (sym T) = sym T *m F u.
  move=> hu; rewrite cjH // /sym mulmxDr mulmxDl hT //; congr (_ + _).
  have hc := cuH half aH hu.
  have eX := lX u a; have eX2 := lX a (u ^ a)%g; have eF := lF u a; have eF2 := lF a (u ^ a)%g.
  rewrite /law_at !(cjH _ hu) in eX eF; rewrite /law_at !cja cuE in eX2 eF2.
  have XX : X u *m X a = (mu u a * mu a (u ^ a)%g) *: (X a *m conj_mx (X (u ^ a)%g)).
    by rewrite eX eX2 scalerA -mulrA sgC_sq mulr1.
  have FF : F u *m F a = (mu u a * mu a (u ^ a)%g) *: (F a *m conj_mx (F (u ^ a)%g)).
    by rewrite eF eF2 scalerA -mulrA sgC_sq mulr1.
  rewrite !mulmxA XX -!scalemxAl -[X a *m _ *m conj_mx T]mulmxA -conj_mxM hT // conj_mxM.
  have FG : G *m F u = (mu u a * mu a (u ^ a)%g) *: (conj_mx (F (u ^ a)%g) *m G).
    rewrite -[F u](mulmxK (law_unit a)) FF -scalemxAl -scalemxAr !mulmxA mulVmx ?law_unit // mul1mx //.
  by rewrite -[in RHS]mulmxA FG -scalemxAr !mulmxA.
have at_a : X a *m cj a (sym T) = sym T *m F a.
  rewrite cja /sym mulmxDl -[X in _ = _ + X]mulmxA mulVmx ?law_unit // mulmx1 [conj_mx _]map_mxD mulmxDr addrC; congr (_ + _).
  rewrite -[map_mx _ _]/(conj_mx (X a *m conj_mx T *m G)) !conj_mxM conj_mxK !mulmxA.
  have eX := lX a a; have eF := lF a a; rewrite /law_at !cja in eX eF.
  have hs := sH half aH; rewrite eX -scalemxAl hT // scalemxAr -eF -[T *m _ *m _]mulmxA -[F a *m _ *m _]mulmxA conjG mulmx1 //.
move=> x; case: (boolP (x \in H)) => hx; first exact: lin.
by have [u hu ->] := split_anti half aH hx; apply: link_mul => //; apply: lin.
Qed.
Lemma average T : T != 0 -> (forall u, u \in H -> X u *m T = T *m F u) -> exists2 S, S != 0 & clink X F S.
Proof.
move=> T0 hT; case: (eqVneq (sym T) 0) => [z|nz]; last by exists (sym T) => //; exact: sym_link.
exists (sym ('i *: T)); last by apply: sym_link => u hu; rewrite -scalemxAr hT // scalemxAl.
move: z; rewrite /sym => /eqP; rewrite addrC addr_eq0 => /eqP z.
rewrite conj_mxZ -scalemxAr -scalemxAl z conjCi scaleNr scalerN opprK -scalerDl scaler_eq0 negb_or T0 andbT.
by rewrite -mulr2n mulrn_eq0 /= neq0Ci.
Qed.
End Average.

Section Built.
Variables (d : nat) (D : gT -> 'M[C]_d).
Hypotheses (pD : projrep mu H D) (uD : unirep H D) (iD : irreducible H D).
Local Notation Db := (conjrep w a D).
Local Notation intertwines := (intertwines H w a D).
Lemma iDb : irreducible H Db.
Proof.
exact: (norm1_irreducible fs (conjrep_rep wc w1 half aH pD) (conjrep_uni w half aH uD) (conj_norm wc w1 half a pD uD iD)).
Qed.
Lemma irr_plus (F : gT -> 'M[C]_d) : (forall u, u \in H -> F u = D u) -> cirr F.
Proof.
move=> FD; case: iD => d0 h; split=> // m W hW; apply: h => u hu.
by have [Y e] := hW u; exists Y; rewrite -FD // -e cjH.
Qed.
Lemma irr_double (F : gT -> 'M[C]_(d + d)) B K : (forall u, u \in H -> F u = doubled w a D u) ->
  F a = block_mx 0 B K 0 -> B \in unitmx -> K \in unitmx ->
  (forall T, intertwines T -> B <> T *m K *m conj_mx T) -> cirr F.
Proof.
move=> FD Fa uB uK no; split=> [|m W hW]; first by rewrite addn_gt0 iD.1.
rewrite -[W]vsubmxK; move: (usubmx W) (dsubmx W) (vsubmxK W) => W1 W2 eW.
have lin u : u \in H -> exists Y, D u *m W1 = W1 *m Y /\ Db u *m W2 = W2 *m Y.
  move=> hu; have [Y] := hW u; rewrite cjH // FD // /doubled -eW mul_block_col mul_col_mx !mul0mx addr0 add0r.
  by move=> /eq_col_mx [e1 e2]; exists Y.
have [Ya [ea1 ea2]] : exists Y, B *m conj_mx W2 = W1 *m Y /\ K *m conj_mx W1 = W2 *m Y.
  have [Y] := hW a; rewrite cja Fa -eW /conj_mx map_col_mx mul_block_col mul_col_mx !mul0mx addr0 add0r.
  by move=> /eq_col_mx [e1 e2]; exists Y.
have cz p (A : 'M[C]_(d, p)) : conj_mx A = 0 -> A = 0 by move=> e; rewrite -[A]conj_mxK e conj_mx0.
have [|z1|[V1 e1]] := iD.2 _ W1; first by move=> u /lin [Y [e _]]; exists Y.
  left; rewrite z1 (_ : W2 = 0) ?col_mx0 //; apply: cz.
  by rewrite -[conj_mx W2](mulKmx uB) ea1 z1 mul0mx mulmx0.
have [|z2|[V2 e2]] := iDb.2 _ W2; first by move=> u /lin [Y [_ e]]; exists Y.
  left; rewrite z2 (_ : W1 = 0) ?col_mx0 //; apply: cz.
  by rewrite -[conj_mx W1](mulKmx uK) ea2 z2 mul0mx mulmx0.
have [N [kN [ker _]]] := right_ker W2.
have [u hu|zN|[V eN]] := iD.2 _ (W1 *m N).
- have [Y [f1 f2]] := lin u hu; have [|Z eZ] := ker _ (Y *m N); first by rewrite mulmxA -f2 -mulmxA kN mulmx0.
  by exists Z; rewrite mulmxA f1 -mulmxA eZ mulmxA.
- have [|T eT] := @factor_through C _ _ _ W1 W2; first by move=> p Z /ker [Y ->]; rewrite mulmxA zN mul0mx.
  case: (no T) => [u hu|].
    have [Y [f1 f2]] := lin u hu.
    have h : D u *m T *m W2 = T *m Db u *m W2 by rewrite -[LHS]mulmxA -eT f1 -[RHS]mulmxA f2 mulmxA -eT.
    by rewrite -[LHS]mulmx1 -[RHS]mulmx1 -e2 !mulmxA h.
  have h : B *m conj_mx W2 = T *m K *m conj_mx T *m conj_mx W2.
    by rewrite -[RHS]mulmxA -conj_mxM -eT -[RHS]mulmxA ea2 mulmxA -eT.
  by rewrite -[LHS]mulmx1 -[RHS]mulmx1 -(conj_mx1 C d) -e2 conj_mxM !mulmxA h.
right; have [P [p1 p2]] : exists P, W1 *m P = 1%:M /\ W2 *m P = 0 by exists (N *m V); rewrite !mulmxA kN mul0mx.
exists (row_mx P (V2 - P *m (W1 *m V2))); rewrite mul_col_row p1 p2 !mulmxBr !mulmxA p1 p2 mul1mx !mul0mx subrr subr0 e2.
by rewrite -scalar_mx_block.
Qed.
Lemma irr_zero (F : gT -> 'M[C]_(d + d)) : (forall X, intertwines X -> X = 0) ->
  (forall u, u \in H -> F u = doubled w a D u) -> F a = off0 w a D -> cirr F.
Proof.
move=> no FD Fa; have uB : mu a a *: D s \in unitmx.
  have : (mu a a *: D s) *m (mu a a *: adj (D s)) = 1%:M.
    by rewrite -scalemxAl -scalemxAr scalerA sgC_sq scale1r uD ?(sH half aH).
  by case/mulmx1_unit.
apply: (irr_double FD Fa uB) => [|T /no ->]; first exact: unitmx1.
rewrite !mul0mx => z; move: uB; rewrite z => /mulVmx; rewrite mulmx0 => /matrixP /(_ (Ordinal iD.1) (Ordinal iD.1)).
by rewrite !mxE eqxx => /eqP; rewrite eq_sym oner_eq0.
Qed.
Lemma irr_minus (F : gT -> 'M[C]_(d + d)) U : U *m adj U = 1%:M ->
  (forall u, u \in H -> F u = doubled w a D u) -> (forall u, u \in H -> Db u = D u) -> F a = offm U -> cirr F.
Proof.
move=> UU FD DD Fa; have uU : U \in unitmx by case/mulmx1_unit: UU.
apply: (irr_double FD Fa) => // [|T hT].
  have : (- U) *m (- adj U) = 1%:M by rewrite mulNmx mulmxN opprK.
  by case/mulmx1_unit.
have {}hT u : u \in H -> D u *m T = T *m D u by move=> hu; rewrite hT // DD.
have -> := schur_scalar fs pD uD (irreducible_norm1 fs pD uD iD) hT; set c := _ / _.
rewrite mul_scalar_mx -[c%:M]scalemx1 conj_mxZ conj_mx1 -scalemxAr mulmx1 scalerA => e.
have : (1 + c^* * c) *: U = 0 by rewrite scalerDl scale1r -e subrr.
move/eqP; rewrite scaler_eq0 => /orP [/eqP z|/eqP z].
  have : 0 < 1 + c^* * c :> C by rewrite mulrC -normCK ltr_paddr ?ltr01 ?exprn_ge0.
  by rewrite z ltxx.
move: uU; rewrite z => /mulVmx; rewrite mulmx0 => /matrixP /(_ (Ordinal iD.1) (Ordinal iD.1)).
by rewrite !mxE eqxx => /eqP; rewrite eq_sym oner_eq0.
Qed.

(** Comparison with another co-representation X: a piece A of X matches D or its conjugate
    exactly when X is equivalent to what was built. *)
Section Compare.
Variables (e k : nat) (X : gT -> 'M[C]_e) (A : gT -> 'M[C]_k) (T : 'M[C]_(e, k)).
Hypotheses (lX : forall x y, law_at H w X x y) (iX : cirr X) (iA : irreducible H A).
Hypotheses (T0 : T != 0) (hT : forall u, u \in H -> X u *m T = T *m A u).
Lemma push m (B : gT -> 'M[C]_m) : equivalent H A B -> exists2 S, S != 0 & forall u, u \in H -> X u *m S = S *m B u.
Proof.
move=> [R [R' [h1 h2 h3]]]; exists (T *m R); last by move=> u hu; rewrite mulmxA hT // -mulmxA h3 // mulmxA.
by apply: contraNneq T0 => z; rewrite -[T]mulmx1 -h1 mulmxA z mul0mx.
Qed.
Lemma match_plus (F : gT -> 'M[C]_d) : (forall x y, law_at H w F x y) -> F 1%g = 1%:M -> (forall u, u \in H -> F u = D u) ->
  equivalent H Db D -> (equivalent H A D \/ equivalent H A Db) <-> cequiv X F.
Proof.
move=> lF F1 FD eqv; split=> [h|[R [R' [h1 h2 h3]]]].
  have {}h : equivalent H A D by case: h => // h; apply: equivalent_trans eqv.
  have [S S0 hS] := push h; have [|S' S0' l] := average lX lF F1 S0; first by move=> u hu; rewrite FD // hS.
  exact: (schur_co iX (irr_plus FD) l S0').
left; apply: equivalent_sym; apply: (@schur_lin _ _ D A (R' *m T)) => // [x hx|].
  have e1 : X x *m R = R *m D x by have := h3 x; rewrite cjH // FD.
  by rewrite -mulmxA -hT // mulmxA mulmxA; congr (_ *m _); rewrite -[LHS]mulmx1 -h1 mulmxA -[D x *m R' *m R]mulmxA h2 mulmx1 -[RHS]mulmx1 -h1 mulmxA -[R' *m X x *m R]mulmxA e1 mulmxA h2 mul1mx.
by apply: contraNneq T0 => z; rewrite -[T]mul1mx -h1 -mulmxA z mulmx0.
Qed.
Lemma match_double (F : gT -> 'M[C]_(d + d)) : (forall x y, law_at H w F x y) -> F 1%g = 1%:M -> cirr F ->
  (forall u, u \in H -> F u = doubled w a D u) ->
  (equivalent H A D \/ equivalent H A Db) <-> cequiv X F.
Proof.
move=> lF F1 iF FD; split=> [h|[R [R' [h1 h2 h3]]]].
  have [S S0 hS] : exists2 S, S != 0 & forall u, u \in H -> X u *m S = S *m F u.
    case: h => /push [S S0 hS].
      exists (row_mx S 0) => [|u hu]; first by rewrite row_mx_eq0 negb_and S0.
      by rewrite FD // /doubled mul_mx_row mulmx0 mul_row_block !mulmx0 !mul0mx !addr0 hS.
    exists (row_mx 0 S) => [|u hu]; first by rewrite row_mx_eq0 negb_and S0 orbT.
    by rewrite FD // /doubled mul_mx_row mulmx0 mul_row_block !mulmx0 !mul0mx !add0r hS.
  have [S' S0' l] := average lX lF F1 S0 hS; exact: (schur_co iX iF l S0').
have e1 x : x \in H -> F x *m (R' *m T) = (R' *m T) *m A x.
  move=> hx; have e2 : X x *m R = R *m F x by have := h3 x; rewrite cjH.
  rewrite -[RHS]mulmxA -hT // !mulmxA; congr (_ *m _).
  by rewrite -[LHS]mul1mx -h2 -mulmxA [R *m _]mulmxA -e2 -mulmxA h1 mulmx1.
have nz : R' *m T != 0 by apply: contraNneq T0 => z; rewrite -[T]mul1mx -h1 -mulmxA z mulmx0.
move: (R' *m T) nz e1 => S nz e1; rewrite -[S]vsubmxK in nz e1; move: (usubmx S) (dsubmx S) nz e1 => S1 S2.
rewrite col_mx_eq0 negb_and => nz e1.
have {}e1 x : x \in H -> D x *m S1 = S1 *m A x /\ Db x *m S2 = S2 *m A x.
  by move=> hx; have := e1 x hx; rewrite FD // /doubled mul_block_col mul_col_mx !mul0mx addr0 add0r => /eq_col_mx.
case/orP: nz => nz; [left|right]; apply: equivalent_sym.
  by apply: (@schur_lin _ _ D A S1) => // x /e1 [].
by apply: (@schur_lin _ _ Db A S2) => //; [exact: iDb|move=> x /e1 []].
Qed.
End Compare.
End Built.
End Irr.
