(** Kramers degeneracy: an anti-linear operation whose square is minus the identity makes the
    dimension even. *)
From Coq Require Import QArith ZArith List.
From mathcomp Require Import all_ssreflect all_algebra.
From Verif Require Import Py Mat3 MatQ GroupModel GroupSpec RepSpec RepModel
  IndexRepSpec CExpSpec SmallModel SmallSpec SpinorModel SpinorSpec SpinorProofs
  CorepModel CorepSpec CorepProofs CorepBridge CorepOutcome CorepBloch.
Import Order.TTheory GRing.Theory Num.Theory.
Set Implicit Arguments.
Unset Strict Implicit.
Unset Printing Implicit Defensive.
Local Open Scope ring_scope.

Lemma conj_square_even (C : numClosedFieldType) d (V : 'M[C]_d) : V *m map_mx conjC V = - 1%:M -> ~~ odd d.
Proof.
move=> h; apply/negP => o.
have : \det V * (\det V)^* = -1.
  by rewrite -det_map_mx -det_mulmx h -scaleN1r -scalemx1 scalerA mulr1 scalemx1 det_scalar -signr_odd o expr1.
move=> e; have := mul_conjC_ge0 (\det V); rewrite e oppr_ge0 => /(lt_le_trans ltr01); by rewrite ltxx.
Qed.

Section Kramers.
Variables (C : numClosedFieldType) (n : nat) (mul : nat -> nat -> nat) (e : nat) (anti : nat -> bool) (nu : nat -> nat -> C).
Hypothesis GL : group_law n mul e.
Hypothesis antiM : forall i j, (i < n)%N -> (j < n)%N -> anti (mul i j) = anti i (+) anti j.
Hypothesis SS : sign_system n mul e nu nu.

Let lt i j : (i < n)%N -> (j < n)%N -> (mul i j < n)%N.
Proof. by move=> /ssrnat.ltP hi /ssrnat.ltP hj; apply/ssrnat.ltP; apply: (gl_closed _ _ _ GL). Qed.
Let assoc i j k : (i < n)%N -> (j < n)%N -> (k < n)%N -> mul i (mul j k) = mul (mul i j) k.
Proof. by move=> /ssrnat.ltP hi /ssrnat.ltP hj /ssrnat.ltP hk; apply: (gl_assoc _ _ _ GL). Qed.
Let sq i j : (i < n)%N -> (j < n)%N -> nu i j * nu i j = 1.
Proof. by move=> hi hj; rewrite (ss_sign SS) // -expr2 sqrr_sign. Qed.
Let inv i j : (i < n)%N -> (j < n)%N -> (nu i j)^-1 = nu i j.
Proof. by move=> hi hj; rewrite (ss_sign SS) // invr_sign. Qed.
Let coc i j k : (i < n)%N -> (j < n)%N -> (k < n)%N -> nu i (mul j k) * nu j k = nu (mul i j) k * nu i j.
Proof. by move=> hi hj hk; rewrite !(ss_sign SS) ?lt // -!signr_addb (ss_cocycle SS). Qed.

(** The matrix of the anti-linear operation t in the extension of D by U. *)
Lemma extension_square a t d (D : nat -> 'M[C]_d) U : (a < n)%N -> anti a -> (t < n)%N -> anti t ->
  linear_rep n mul e anti nu D -> conj_intertwiner n mul anti nu a D U ->
  U *m map_mx conjC U = nu a a *: D (mul a a) ->
  exists V : 'M[C]_d, V *m map_mx conjC V = nu t t *: D (mul t t).
Proof.
move=> ha aa ht at_ [De Dm _] int sqU.
have [b [/ssrnat.ltP hb [ab ba]]] := gl_inv _ _ _ GL a (ssrnat.ltP ha).
have he : (e < n)%N by apply/ssrnat.ltP; exact: (gl_e _ _ _ GL).
have one_l i : (i < n)%N -> mul e i = i by move=> /ssrnat.ltP; apply: (gl_1l _ _ _ GL).
have one_r i : (i < n)%N -> mul i e = i by move=> /ssrnat.ltP; apply: (gl_1r _ _ _ GL).
have ae : anti e = false by have := antiM he he; rewrite one_l //; case: (anti e).
have bb : anti b by have := antiM ha hb; rewrite ab ae aa; case: (anti b).
set u := mul b t; set w := mul t b.
have hu : (u < n)%N by apply: lt. have hw : (w < n)%N by apply: lt.
have lu : linear_op n anti u by rewrite /linear_op hu antiM // bb at_.
have lw : linear_op n anti w by rewrite /linear_op hw antiM // bb at_.
have au : mul a u = t by rewrite /u assoc // ab one_l.
have wa : mul w a = t by rewrite /w -assoc // ba one_r.
have haa := lt ha ha.
have laa : linear_op n anti (mul a a) by rewrite /linear_op haa antiM // aa.
have i1 : D w *m U = U *m ((nu w a / nu a u) *: map_mx conjC (D u)) by apply: int; rewrite // au wa.
exists (nu a u *: (U *m map_mx conjC (D u))).
have e1 : nu a u *: (U *m map_mx conjC (D u)) = nu w a *: (D w *m U).
  by rewrite i1 -scalemxAr scalerA mulrA sq // mul1r inv.
have cr i j : (i < n)%N -> (j < n)%N -> (nu i j)^* = nu i j.
  by move=> hi hj; rewrite (ss_sign SS) // rmorph_sign.
rewrite {1}e1 map_mxZ map_mxM cr //.
have -> : map_mx conjC (map_mx conjC (D u)) = D u by apply/matrixP => x y; rewrite !mxE conjCK.
rewrite -scalemxAl -scalemxAr -mulmxA [U *m _]mulmxA sqU -scalemxAl -scalemxAr !scalerA mulmxA Dm // -scalemxAl scalerA.
have lwaa : linear_op n anti (mul w (mul a a)).
  rewrite /linear_op lt // antiM //; move: lw laa; rewrite /linear_op => /andP [_ h1] /andP [_ h2].
  by rewrite (negPf h1) (negPf h2).
rewrite Dm // scalerA assoc // wa -assoc // au; congr (_ *: _).
have h1 := coc hw ha ha; have h2 := coc ht ha hu; rewrite wa au in h1 h2.
have g (x y p q s : C) : x * (y * p) * q * s = x * (q * p) * (y * s) by rewrite -!mulrA; congr (_ * _); rewrite [p * (q * s)]mulrCA [LHS]mulrCA; congr (_ * _); rewrite mulrCA.
have -> : nu w a * (nu a u * nu a a) * nu w (mul a a) * nu (mul t a) u = nu t a * (nu a u * nu (mul t a) u).
  by rewrite g h1 [nu w a * _]mulrCA sq // mulr1.
by rewrite mulrCA [nu t a * _]mulrC -h2 mulrCA sq // mulr1.
Qed.

Lemma kramers_even a t d (D : nat -> 'M[C]_d) : (a < n)%N -> anti a -> (t < n)%N -> anti t ->
  linear_rep n mul e anti nu D -> corep_kind n mul anti nu a D 1 -> mul t t = e -> nu t t = -1 -> ~~ odd d.
Proof.
move=> ha aa ht at_ rD k tt m1; case: k => [[_ [U [int _ sqU]]]|[h _]|[h _]]; [|by move/eqP: h|by move/eqP: h].
have [V hV] := extension_square ha aa ht at_ rD int sqU; apply: (@conj_square_even _ _ V).
by rewrite hV tt m1; case: rD => -> _ _; rewrite scaleN1r.
Qed.
End Kramers.

(** The operations whose rotation is 1 or -1 have these properties. *)
Section Reversal.
Variables (C : numClosedFieldType) (E : numpy C) (G : trig C) (L : 'M[C]_3).
Variables (rots : list mat) (flags : list bool) (mul : nat -> nat -> nat) (e : nat).
Hypotheses (EO : eig_ok E) (GO : trig_ok G) (LO : lattice_ok L) (LE : size flags = size rots).
Hypothesis PM : forall r, In r rots -> preserves_metric L r.
Hypotheses (LG : lists_magnetic_group (combine rots flags)) (M : mag_multiplication (combine rots flags) mul e).
Variable t : nat.
Hypotheses (ht : (t < size rots)%N) (at_ : seq.nth false flags t).
Hypothesis rt : List.nth t rots mid = mid \/ List.nth t rots mid = mneg mid.
Lemma reversal_twice : mul t t = e.
Proof.
have [h1 h2] := lin_mulE LE M ht ht; have [i1 i2] := lin_id LE M.
apply: (lin_inj LE LG) => //; [exact: (lin_mulN LE M)|exact: (lin_e LE M)| |].
  by rewrite h1 i1; case: rt => ->.
by rewrite h2 i2 addbb.
Qed.
Lemma reversal_sign z U : get_corep_spinor_factor_system E G L rots flags = Ret (z, U, flags) -> z t t = -1.
Proof.
have [z' [-> zE]] := corep_factor_system EO GO LO LE PM LG M; case=> <- _.
have so := size_ops LE; rewrite so in zE; rewrite zE // (nth_ops LE) /mag_sign /=.
have -> : List.nth t flags false = true by rewrite -at_; elim: (flags) (t) => [|x l IH] [|k] //=.
rewrite expr1 mulN1r; congr (- _).
have P : preserves_metric L (List.nth t rots mid) by apply: PM; apply: List.nth_In; apply/ssrnat.ltP.
have [_] := spin_sign_ok EO GO LO P P.
have -> : spin_of E G L (List.nth t rots mid) = 1%:M.
  by rewrite /spin_of; case: rt => ->; rewrite ?(spin_id E GO LO) ?(spin_inversion E GO LO).
have -> : mmul (List.nth t rots mid) (List.nth t rots mid) = mid by case: rt => ->.
by rewrite (spin_of_id E GO LO) mulmx1 => /matrixP /(_ 0 0); rewrite !mxE mulr1.
Qed.
End Reversal.
