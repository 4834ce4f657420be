(** Co-representations of a finite group with a subgroup of index two acting linearly, for a
    factor system of signs (-1)^w. *)
From mathcomp Require Import all_ssreflect all_algebra all_fingroup.
From Verif Require Import RepSpec RepModel RepTheory CorepModel CorepSpec.
Import Order.TTheory GRing.Theory Num.Theory GroupScope.
Set Implicit Arguments.
Unset Strict Implicit.
Unset Printing Implicit Defensive.
Local Open Scope ring_scope.

Section Conj.
Variable C : numClosedFieldType.
Lemma conj_mxM m n p (A : 'M[C]_(m, n)) (B : 'M[C]_(n, p)) : conj_mx (A *m B) = conj_mx A *m conj_mx B.
Proof. exact: map_mxM. Qed.
Lemma conj_mxK m n (A : 'M[C]_(m, n)) : conj_mx (conj_mx A) = A.
Proof. by apply/matrixP => i j; rewrite !mxE conjCK. Qed.
Lemma conj_mxZ m n a (A : 'M[C]_(m, n)) : conj_mx (a *: A) = a^* *: conj_mx A.
Proof. by apply/matrixP => i j; rewrite !mxE rmorphM. Qed.
Lemma conj_mx1 n : conj_mx (1%:M : 'M[C]_n) = 1%:M.
Proof. by rewrite /conj_mx map_mx1. Qed.
Lemma conj_mx0 m n : conj_mx (0 : 'M[C]_(m, n)) = 0.
Proof. by rewrite /conj_mx map_mx0. Qed.
Lemma conj_mxN m n (A : 'M[C]_(m, n)) : conj_mx (- A) = - conj_mx A.
Proof. by rewrite /conj_mx map_mxN. Qed.
Lemma conj_block m1 m2 n1 n2 (A : 'M[C]_(m1, n1)) (B : 'M[C]_(m1, n2)) (D : 'M[C]_(m2, n1)) (F : 'M[C]_(m2, n2)) :
  conj_mx (block_mx A B D F) = block_mx (conj_mx A) (conj_mx B) (conj_mx D) (conj_mx F).
Proof. exact: map_block_mx. Qed.
Lemma adj_conj m n (A : 'M[C]_(m, n)) : adj (conj_mx A) = conj_mx (adj A).
Proof. by apply/matrixP => i j; rewrite !mxE. Qed.
Lemma sgC_conj b : ((-1) ^+ b : C)^* = (-1) ^+ b.
Proof. by rewrite rmorphX rmorphN rmorph1. Qed.
Lemma sgC_sq (b : bool) : ((-1) ^+ b : C) * (-1) ^+ b = 1.
Proof. by rewrite -expr2 sqrr_sign. Qed.
Lemma sgC_inv (b : bool) : ((-1) ^+ b : C)^-1 = (-1) ^+ b.
Proof. by rewrite -exprVn invrN1. Qed.
Lemma sgC_add (b c : bool) : ((-1) ^+ b : C) * (-1) ^+ c = (-1) ^+ (b (+) c).
Proof. by rewrite signr_addb. Qed.
Lemma sgC_neq0 (b : bool) : ((-1) ^+ b : C) != 0.
Proof. by rewrite signr_eq0. Qed.
End Conj.

Section Theory.
Variables (C : numClosedFieldType) (gT : finGroupType) (H : {group gT}) (w : gT -> gT -> bool).
Hypothesis wc : forall x y z, w x (y * z)%g (+) w y z = w (x * y)%g z (+) w x y.
Hypothesis w1 : w 1%g 1%g = false.
Hypothesis half : forall x y, ((x * y)%g \in H) = ((x \in H) == (y \in H)).
Let mu x y : C := (-1) ^+ w x y.
Lemma sign_fs : factor_system mu.
Proof.
split=> [x y z|x y|]; rewrite /mu; last by rewrite w1 expr0.
  by rewrite !sgC_add wc.
by rewrite normrX normrN normr1 expr1n.
Qed.
Lemma w1x x : w 1%g x = false.
Proof. by have := mu1x sign_fs x; rewrite /mu; case: (w _ _) => // /eqP; rewrite expr1 eqr_oppLR -addr_eq0 -mulr2n pnatr_eq0. Qed.
Lemma wx1 x : w x 1%g = false.
Proof. by have := mux1 sign_fs x; rewrite /mu; case: (w _ _) => // /eqP; rewrite expr1 eqr_oppLR -addr_eq0 -mulr2n pnatr_eq0. Qed.

Definition cj (x : gT) m n (A : 'M[C]_(m, n)) := conj_if (x \notin H) A.
Lemma cjM x m n p (A : 'M[C]_(m, n)) (B : 'M[C]_(n, p)) : cj x (A *m B) = cj x A *m cj x B.
Proof. by rewrite /cj /conj_if; case: ifP => // _; exact: conj_mxM. Qed.
Lemma cjs x b m n (A : 'M[C]_(m, n)) : cj x ((-1) ^+ b *: A) = (-1) ^+ b *: cj x A.
Proof. by rewrite /cj /conj_if; case: ifP => // _; rewrite -[map_mx _ _]/(conj_mx _) conj_mxZ sgC_conj. Qed.
Lemma cjcj x y m n (A : 'M[C]_(m, n)) : cj x (cj y A) = cj (x * y)%g A.
Proof.
rewrite /cj /conj_if half; case: (x \in H); case: (y \in H) => //=; exact: conj_mxK.
Qed.

Section Extend.
Variables (d : nat) (D : gT -> 'M[C]_d).
Definition law_at x y : Prop := D x *m cj x (D y) = mu x y *: D (x * y)%g.
Lemma mu_sq x y : mu x y * mu x y = 1. Proof. exact: sgC_sq. Qed.
Lemma law_right x y z : law_at x y -> law_at (x * y)%g z -> law_at y z -> law_at x (y * z)%g.
Proof.
rewrite /law_at => h1 h2 h3.
have -> : D (y * z)%g = mu y z *: (D y *m cj y (D z)) by rewrite h3 scalerA mu_sq scale1r.
rewrite cjs cjM cjcj -scalemxAr mulmxA h1 -scalemxAl h2 !scalerA mulgA; congr (_ *: _).
by rewrite /mu !sgC_add; congr (_ ^+ (nat_of_bool _)); move: (wc x y z); do 4!case: (w _ _).
Qed.
Lemma law_left x y z : law_at x y -> law_at x (y * z)%g -> law_at y z -> law_at (x * y)%g z.
Proof.
rewrite /law_at => h1 h2 h3.
have -> : D (x * y)%g = mu x y *: (D x *m cj x (D y)) by rewrite h1 scalerA mu_sq scale1r.
rewrite -scalemxAl -mulmxA -cjcj -cjM h3 cjs -scalemxAr h2 !scalerA mulgA; congr (_ *: _).
by rewrite /mu !sgC_add; congr (_ ^+ (nat_of_bool _)); move: (wc x y z); do 4!case: (w _ _).
Qed.

Variable a : gT.
Hypothesis aH : a \notin H.
Lemma sH : (a * a)%g \in H. Proof. by rewrite half (negPf aH). Qed.
Lemma aux u : u \in H -> (a * u)%g \notin H. Proof. by move=> hu; rewrite half hu (negPf aH). Qed.
Lemma cuH u : u \in H -> (u ^ a)%g \in H. Proof. by move=> hu; rewrite conjgE half half hu (negPf aH) groupV (negPf aH). Qed.
Lemma cuE u : (a * u ^ a)%g = (u * a)%g. Proof. by rewrite conjgE !mulgA mulgV mul1g. Qed.
Lemma split_anti x : x \notin H -> exists2 u, u \in H & x = (a * u)%g.
Proof. by move=> hx; exists (a^-1 * x)%g; rewrite ?mulKVg // half groupV (negPf aH) (negPf hx). Qed.

Hypothesis linear : forall u v, u \in H -> v \in H -> law_at u v.
Hypothesis l_au : forall u, u \in H -> law_at a u.
Hypothesis l_ua : forall u, u \in H -> law_at u a.
Hypothesis l_aa : law_at a a.
Lemma law_all x y : law_at x y.
Proof.
have au_v u v : u \in H -> v \in H -> law_at (a * u)%g v.
  by move=> hu hv; apply: law_left; [exact: l_au|apply: l_au; rewrite groupM|exact: linear].
have v_au u v : u \in H -> v \in H -> law_at v (a * u)%g.
  move=> hu hv; apply: law_right; [exact: l_ua| |exact: l_au].
  by rewrite -cuE; apply: au_v => //; exact: cuH.
have au_a u : u \in H -> law_at (a * u)%g a.
  move=> hu; apply: law_left; [exact: l_au| |exact: l_ua].
  rewrite -cuE; apply: law_right; [exact: l_aa|apply: linear; [exact: sH|exact: cuH]|apply: l_au; exact: cuH].
case hx: (x \in H); case hy: (y \in H).
- exact: linear.
- by have [v hv ->] := split_anti (negbT hy); apply: v_au.
- by have [u hu ->] := split_anti (negbT hx); apply: au_v.
have [u hu ->] := split_anti (negbT hx); have [v hv ->] := split_anti (negbT hy).
apply: law_right; [exact: au_a| |exact: l_au].
by apply: linear => //; rewrite half (negPf (aux hu)) (negPf aH).
Qed.
End Extend.

(** ** The conjugated representation *)
Variable a : gT.
Hypothesis aH : a \notin H.
Let s := (a * a)%g.
Variables (d : nat) (D : gT -> 'M[C]_d).
Hypothesis pD : projrep mu H D.
Definition f (u : gT) : bool := w u a (+) w a (u ^ a)%g.
Definition conjrep (u : gT) : 'M[C]_d := (-1) ^+ f u *: conj_mx (D (u ^ a)%g).
Lemma lin_law u v : u \in H -> v \in H -> D u *m D v = mu u v *: D (u * v)%g.
Proof. by case: pD => _; apply. Qed.
Lemma f_mul u v : f u (+) f v (+) w (u ^ a)%g (v ^ a)%g = w u v (+) f (u * v)%g.
Proof.
rewrite /f conjMg; have := wc u v a; have := wc u a (v ^ a)%g; have := wc a (u ^ a)%g (v ^ a)%g; rewrite !cuE.
by do 10!case: (w _ _).
Qed.
Lemma conjrep_rep : projrep mu H conjrep.
Proof.
split=> [|u v hu hv].
  have [h _] := pD; by rewrite /conjrep /f conj1g h w1x wx1 expr0 scale1r conj_mx1.
rewrite /conjrep -scalemxAl -scalemxAr scalerA -conj_mxM lin_law ?cuH // conj_mxZ sgC_conj !scalerA conjMg; congr (_ *: _).
by rewrite /mu !sgC_add f_mul.
Qed.
Lemma conjrep_uni : unirep H D -> unirep H conjrep.
Proof.
move=> uD u hu; rewrite /conjrep adjZ sgC_conj -scalemxAl -scalemxAr scalerA sgC_sq scale1r adj_conj -conj_mxM uD ?cuH //.
exact: conj_mx1.
Qed.
(** Conjugation with a twice is conjugation with D(a a). *)
Lemma f_sq u : f u (+) f (u ^ a)%g = w u s (+) w s (u ^ s)%g.
Proof.
rewrite /f /s -conjgM; have := wc u a a; have := wc a (u ^ a)%g a; have := wc a a (u ^ (a * a))%g.
have e1 : (u ^ a * a = a * u ^ (a * a))%g by rewrite conjgM cuE.
rewrite e1 cuE; by do 9!case: (w _ _).
Qed.

(** ** The three kinds of co-representations *)
Section Kinds.
Variables (m : nat) (F : gT -> 'M[C]_m) (A0 : 'M[C]_m).
Hypothesis F1 : F 1%g = 1%:M.
Hypothesis F_lin : forall u v, u \in H -> v \in H -> F u *m F v = mu u v *: F (u * v)%g.
Hypothesis F_anti : forall u, u \in H -> F (a * u)%g = mu a u *: (A0 *m conj_mx (F u)).
Lemma F_a : F a = A0.
Proof. by have := F_anti (group1 H); rewrite mulg1 F1 conj_mx1 mulmx1 /mu wx1 expr0 scale1r. Qed.
Hypothesis F_ua : forall u, u \in H -> F u *m A0 = (-1) ^+ f u *: (A0 *m conj_mx (F (u ^ a)%g)).
Hypothesis F_aa : A0 *m conj_mx A0 = mu a a *: F s.
Lemma extend_law x y : law_at F x y.
Proof.
have cjH u (X : 'M[C]_m) : u \in H -> cj u X = X by move=> hu; rewrite /cj /conj_if hu.
have cja (X : 'M[C]_m) : cj a X = conj_mx X by rewrite /cj /conj_if aH.
apply: (law_all aH) => [u v hu hv|u hu|u hu|]; rewrite /law_at.
- by rewrite cjH //; apply: F_lin.
- by rewrite F_a cja F_anti // scalerA mu_sq scale1r.
- rewrite cjH // F_a F_ua // -cuE F_anti ?cuH // scalerA; congr (_ *: _).
  by rewrite /mu sgC_add; congr (_ ^+ (nat_of_bool _)); rewrite /f; do 2!case: (w _ _).
- by rewrite F_a cja.
Qed.
End Kinds.

Lemma blockM (n : nat) (A B A' B' D1 D2 D1' D2' : 'M[C]_n) :
  block_mx A B D1 D2 *m block_mx A' B' D1' D2' =
  block_mx (A *m A' + B *m D1') (A *m B' + B *m D2') (D1 *m A' + D2 *m D1') (D1 *m B' + D2 *m D2').
Proof. exact: mulmx_block. Qed.
Definition doubled (u : gT) : 'M[C]_(d + d) := block_mx (D u) 0 0 (conjrep u).
Lemma doubled1 : doubled 1%g = 1%:M.
Proof. by have [h _] := pD; have [h' _] := conjrep_rep; rewrite /doubled h h' -scalar_mx_block. Qed.
Lemma doubled_lin u v : u \in H -> v \in H -> doubled u *m doubled v = mu u v *: doubled (u * v)%g.
Proof.
move=> hu hv; have [_ h'] := conjrep_rep; rewrite /doubled blockM !mul0mx !mulmx0 !addr0 !add0r lin_law // h' //.
by rewrite scale_block_mx !scaler0.
Qed.
(** Conjugating twice. *)
Lemma conj_conjrep u : u \in H -> D u *m D s = (-1) ^+ f u *: (D s *m conj_mx (conjrep (u ^ a)%g)).
Proof.
move=> hu; have hs : s \in H := sH aH.
have sE : (s * u ^ s = u * s)%g by rewrite conjgE !mulgA mulgV mul1g.
have hus : (u ^ s)%g \in H by rewrite memJ_norm // (subsetP (normG H)).
rewrite /conjrep conj_mxZ sgC_conj conj_mxK -scalemxAr scalerA -conjgM -/s lin_law // lin_law // sE scalerA; congr (_ *: _).
by rewrite /mu !sgC_add f_sq; congr (_ ^+ (nat_of_bool _)); do 2!case: (w _ _).
Qed.
Lemma sa : (s ^ a = s)%g. Proof. by rewrite /s conjgE !mulgA mulVg mul1g. Qed.
Lemma f_s : f s = false.
Proof. by rewrite /f sa /s; have := wc a a a; do 4!case: (w _ _). Qed.
(** Indicator 0. *)
Definition off0 : 'M[C]_(d + d) := block_mx 0 (mu a a *: D s) 1%:M 0.
Lemma off0_ua u : u \in H -> doubled u *m off0 = (-1) ^+ f u *: (off0 *m conj_mx (doubled (u ^ a)%g)).
Proof.
move=> hu; rewrite /doubled /off0 conj_block !conj_mx0 !blockM !mul0mx !mulmx0 !addr0 !add0r mulmx1 mul1mx scale_block_mx !scaler0.
congr block_mx; rewrite -scalemxAr conj_conjrep // -scalemxAl !scalerA mulrC //.
Qed.
Lemma off0_aa : off0 *m conj_mx off0 = mu a a *: doubled s.
Proof.
rewrite /doubled /off0 conj_block !conj_mx0 conj_mx1 !blockM !mul0mx !mulmx0 !addr0 !add0r mulmx1 mul1mx scale_block_mx !scaler0.
by rewrite conj_mxZ sgC_conj /conjrep f_s expr0 scale1r sa.
Qed.
(** Indicators 1 and -1. *)
Hypotheses (uD : unirep H D) (iD : irreducible H D).
Variable U : 'M[C]_d.
Hypothesis UU : U *m adj U = 1%:M.
Hypothesis hU : forall u, u \in H -> D u *m U = U *m conjrep u.
Lemma U_ua u : u \in H -> D u *m U = (-1) ^+ f u *: (U *m conj_mx (D (u ^ a)%g)).
Proof. by move=> hu; rewrite hU // /conjrep -scalemxAr. Qed.
Let X := U *m conj_mx U.
Lemma X_comm u : u \in H -> D u *m X = (-1) ^+ (f u (+) f (u ^ a)%g) *: (X *m D (u ^ s)%g).
Proof.
move=> hu; rewrite /X mulmxA U_ua // -scalemxAl -mulmxA -conj_mxM U_ua ?cuH // conj_mxZ sgC_conj conj_mxM conj_mxK -scalemxAr.
by rewrite scalerA sgC_add -conjgM mulmxA.
Qed.
Lemma X_unit : X *m adj X = 1%:M.
Proof. by rewrite /X adjM mulmxA -(mulmxA U) adj_conj -conj_mxM UU conj_mx1 mulmx1. Qed.
Lemma dim_pos : (0 < d)%N. Proof. exact: iD.1. Qed.
Lemma X_scalar : exists c, X = c *: D s.
Proof.
have hs : s \in H := sH aH; have hD := unirep_l uD.
have us : D s *m adj (D s) = 1%:M by apply: uD.
have N := irreducible_norm1 sign_fs pD uD iD.
have c1 : X *m adj (D s) = (\tr (X *m adj (D s)) / d%:R)%:M.
  apply: (schur_scalar sign_fs pD uD N) => u hu.
  have sE : (s * u ^ s = u * s)%g by rewrite conjgE !mulgA mulgV mul1g.
  have hus : (u ^ s)%g \in H by rewrite memJ_norm // (subsetP (normG H)).
  have cs : D (u ^ s)%g *m adj (D s) = (-1) ^+ (w u s (+) w s (u ^ s)%g) *: (adj (D s) *m D u).
    have : D s *m D (u ^ s)%g = (-1) ^+ (w u s (+) w s (u ^ s)%g) *: (D u *m D s).
      rewrite !lin_law // sE scalerA /mu sgC_add; congr (_ ^+ (nat_of_bool _) *: _).
      by do 2!case: (w _ _).
    move=> /(congr1 (fun M => adj (D s) *m M *m adj (D s))); rewrite mulmxA (hD s hs) mul1mx => ->.
    by rewrite -scalemxAr -scalemxAl -!mulmxA us mulmx1.
  by rewrite mulmxA X_comm // -scalemxAl -mulmxA cs -scalemxAr scalerA f_sq sgC_sq scale1r mulmxA.
exists (\tr (X *m adj (D s)) / d%:R).
by rewrite -mul_scalar_mx -c1 -mulmxA (hD s hs) mulmx1.
Qed.
Lemma X_sign : exists k : bool, X = ((-1) ^+ k * mu a a) *: D s.
Proof.
have [c hc] := X_scalar; have hs : s \in H := sH aH.
have us : D s *m adj (D s) = 1%:M by apply: uD.
have d0 : (d%:R : C) != 0 by rewrite pnatr_eq0 -lt0n dim_pos.
have n1 : c * c^* = 1.
  have := X_unit; rewrite hc adjZ -scalemxAl -scalemxAr us scalerA => /(congr1 mxtrace).
  by rewrite mxtraceZ mxtrace1 => h; apply: (mulIf d0); rewrite mul1r.
have cr : c^* = c.
  have e1 : X *m U = U *m conj_mx X by rewrite /X conj_mxM conj_mxK mulmxA.
  move: e1; rewrite hc conj_mxZ -scalemxAl U_ua // f_s expr0 scale1r sa -scalemxAr.
  move=> /(congr1 (fun M => M *m conj_mx (adj (D s)) *m adj U)); rewrite -!scalemxAl -!mulmxA [conj_mx (D s) *m _]mulmxA -conj_mxM us conj_mx1 mul1mx UU.
  by move=> /(congr1 mxtrace); rewrite !mxtraceZ mxtrace1 => h; symmetry; apply: (mulIf d0).
have : c ^+ 2 = 1 by rewrite expr2 -{2}cr.
move=> /eqP; rewrite sqrf_eq1 => cc.
have [b hb] : exists b : bool, c = (-1) ^+ b by case/orP: cc => /eqP ->; [exists false|exists true].
exists (b (+) w a a); rewrite hc hb; congr (_ *: _).
by rewrite /mu sgC_add; congr (_ ^+ (nat_of_bool _)); case: b {hb}; case: (w _ _).
Qed.
Lemma w_sq u : w (a * u)%g (a * u)%g = w a a (+) f u (+) w s (u ^ a)%g (+) w (s * u ^ a)%g u.
Proof.
have e1 : (s * u ^ a = a * (u * a))%g by rewrite /s -mulgA cuE.
have e2 : (u * (a * u) = u * a * u)%g by rewrite mulgA.
have := wc a u (a * u)%g; have := wc u a u; have := wc a (u * a)%g u; have := wc a a (u ^ a)%g.
rewrite e2 cuE -/s e1 /f.
move: (w (a * u)%g (a * u)%g) (w a (u * a * u)%g) (w u (a * u)%g) (w a u) (w (u * a)%g u) (w u a) (w (a * (u * a))%g u) (w a (u * a)%g) (w a (u ^ a)%g) (w s (u ^ a)%g) (w a a).
move=> x1 x2 x3 x4 x5 x6 x7 x8 x9 x10 x11 h4 h3 h2 h1.
have sol (p q r : bool) : p (+) q = r -> p = r (+) q by case: p; case: q; case: r.
by rewrite (sol _ _ _ (esym h1)) (sol _ _ _ h3) (sol _ _ _ h2) (sol _ _ _ h4); clear;
  case: x4; case: x5; case: x6; case: x7; case: x9; case: x10; case: x11.
Qed.
Lemma indicator_sum (k : bool) : X = ((-1) ^+ k * mu a a) *: D s ->
  \sum_(u in H) mu (a * u)%g (a * u)%g * \tr (D (a * u * (a * u))%g) = (-1) ^+ k * #|H|%:R.
Proof.
move=> hX; have hs : s \in H := sH aH.
have Ul : adj U *m U = 1%:M by apply: mulmx1C.
have N := irreducible_norm1 sign_fs pD uD iD.
have d0 : (d%:R : C) != 0 by rewrite pnatr_eq0 -lt0n dim_pos.
have term u : u \in H -> mu (a * u)%g (a * u)%g * \tr (D (a * u * (a * u))%g) =
    (-1) ^+ k * \tr (U *m conj_mx (D u) *m (conj_mx U *m D u)).
  move=> hu; have hc := cuH aH hu.
  have -> : (a * u * (a * u) = s * u ^ a * u)%g by rewrite /s -[(a * a * _)%g]mulgA cuE !mulgA.
  have -> : D (s * u ^ a * u)%g = (mu (s * u ^ a)%g u * mu s (u ^ a)%g) *: (D s *m D (u ^ a)%g *m D u).
    rewrite (lin_law hs hc) -scalemxAl (lin_law (groupM hs hc) hu) !scalerA.
    by rewrite -[mu _ u * _ * _]mulrA mu_sq mulr1 mu_sq scale1r.
  have -> : D (u ^ a)%g = (-1) ^+ f u *: (conj_mx (adj U) *m conj_mx (D u) *m conj_mx U).
    have := hU hu => /(congr1 (fun M => adj U *m M)); rewrite mulmxA [adj U *m (U *m _)]mulmxA Ul mul1mx => h.
    by rewrite -!conj_mxM h /conjrep conj_mxZ sgC_conj conj_mxK scalerA sgC_sq scale1r.
  have -> : D s = ((-1) ^+ k * mu a a) *: X by rewrite hX scalerA mulrACA mu_sq sgC_sq mulr1 scale1r.
  rewrite -!(scalemxAl, scalemxAr) !mxtraceZ !mulrA; congr (_ * _).
    by rewrite /mu !sgC_add w_sq; congr (_ ^+ (nat_of_bool _)); case: k {hX}; do 4!case: (w _ _); case: (f u).
  by rewrite /X -!mulmxA [conj_mx U *m (conj_mx (adj U) *m _)]mulmxA -conj_mxM UU conj_mx1 mul1mx.
rewrite (eq_bigr _ term) -mulr_sumr; congr (_ * _).
under eq_bigr => u hu.
  rewrite /mxtrace; under eq_bigr => i _.
    rewrite mxE; under eq_bigr => l _.
      rewrite !mxE mulr_suml; under eq_bigr => j _.
        rewrite mulr_sumr; under eq_bigr => m _ do rewrite !mxE mulrACA.
        over.
      over.
    over.
  over.
rewrite exchange_big /=.
have -> : #|H|%:R = \sum_i \sum_j #|H|%:R / d%:R * (U i j * (U i j)^*) :> C.
  under eq_bigr => i _ do rewrite -mulr_sumr.
  rewrite -mulr_sumr; have := congr1 mxtrace UU; rewrite mxtrace1 /mxtrace.
  under eq_bigr => i _ do rewrite mxE; under eq_bigr => i _ do under eq_bigr => j _ do rewrite !mxE.
  by move=> ->; rewrite mulfVK.
apply: eq_bigr => i _; rewrite exchange_big /=.
have GO := great_orthogonality sign_fs pD uD N.
under eq_bigr => j _.
  rewrite exchange_big /=; under eq_bigr => l _.
    rewrite exchange_big /=; under eq_bigr => m _.
      rewrite -mulr_sumr; under eq_bigr => x _ do rewrite mulrC.
      rewrite GO; over.
    over.
  over.
rewrite (bigD1 i) //= [X in _ + X]big1 ?addr0 => [|j ji]; last first.
  by apply: big1 => l _; apply: big1 => m _; rewrite [i == j]eq_sym (negPf ji) andbF !mulr0.
apply: eq_bigr => l _; rewrite (bigD1 l) //= !eqxx [X in _ + X]big1 ?addr0 => [|m ml]; last first.
  by rewrite (negPf ml) !mulr0.
rewrite -[(true && true)%:R]/1 mulr1 [LHS]mulrC.
by [].

Qed.
(** When both signs agree with the indicator, U extends D; otherwise a doubled matrix does. *)
Definition offm : 'M[C]_(d + d) := block_mx 0 (- U) U 0.
Definition twice (u : gT) : 'M[C]_(d + d) := block_mx (D u) 0 0 (D u).
Lemma twice1 : twice 1%g = 1%:M.
Proof. by have [h _] := pD; rewrite /twice h -scalar_mx_block. Qed.
Lemma twice_lin u v : u \in H -> v \in H -> twice u *m twice v = mu u v *: twice (u * v)%g.
Proof.
move=> hu hv; rewrite /twice blockM !mul0mx !mulmx0 !addr0 !add0r lin_law //.
by rewrite scale_block_mx !scaler0.
Qed.
Lemma offm_ua u : u \in H -> twice u *m offm = (-1) ^+ f u *: (offm *m conj_mx (twice (u ^ a)%g)).
Proof.
move=> hu; rewrite /twice /offm conj_block !conj_mx0 !blockM !mul0mx !mulmx0 !addr0 !add0r scale_block_mx !scaler0.
by rewrite mulmxN mulNmx U_ua // scalerN.
Qed.
Lemma offm_aa : X = - (mu a a *: D s) -> offm *m conj_mx offm = mu a a *: twice s.
Proof.
move=> h; rewrite /twice /offm conj_block !conj_mx0 !blockM !mul0mx !mulmx0 !addr0 !add0r conj_mxN mulNmx mulmxN -/X h.
by rewrite opprK scale_block_mx !scaler0.
Qed.
End Theory.
