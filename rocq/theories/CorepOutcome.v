(** Proofs about CorepModel: the outcome of enumerate_spinor_small_corepresentations. *)
From Coq Require Import QArith ZArith List String.
From mathcomp Require Import all_ssreflect all_algebra all_fingroup.
From Verif Require Import Py Mat3 MatQ GroupModel GroupSpec GroupProofs RepSpec RepModel RepTheory RepProofs Mx2 IndexRepSpec IndexGroup
  CExpSpec ChainModel ChainTheory SmallModel SmallSpec SmallTheory SpinorModel SpinorSpec SpinorTheory SpinorProofs SpinorConv CorepModel CorepSpec CorepProofs
  CorepTheory CorepKinds CorepBridge CorepPipeline PurifyTheory ClaimsChain.
Import Order.TTheory GRing.Theory Num.Theory.
Set Implicit Arguments.
Unset Strict Implicit.
Unset Printing Implicit Defensive.
Local Open Scope ring_scope.

Lemma cmap_all A B (f : A -> cres B) (g : A -> B) l : (forall x, f x = COk (g x)) -> cmap f l = COk (map g l).
Proof. by move=> h; elim: l => //= x l ->; rewrite h. Qed.
Lemma cmap_nth A B (x0 : A) (y0 : B) (f : A -> cres B) l l' : cmap f l = COk l' ->
  size l' = size l /\ forall i, (i < size l)%N -> f (nth x0 l i) = COk (nth y0 l' i).
Proof.
elim: l l' => [|x l IH] l' /=; first by case=> <-.
case Ex: (f x) => [y| | |] //=; case El: (cmap f l) => [l2| | |] //= [<-] /=.
by have [-> h] := IH _ El; split=> // -[|i] //= hi; apply: h.
Qed.

Lemma pairs_some (C : numClosedFieldType) (E : numpy C) mu l1 l2 n chars conj_chars N l :
  corep_pairs E mu l1 l2 n chars conj_chars (iota 0 N) (nseq N false) = COk l -> (0 < N)%N -> (0 < size l)%N.
Proof.
case: N => // N; rewrite /=; case: ifP => // _; case: ifP => // _.
  by case: corep_pairs => //= l' [<-].
by case: ifP => // _; case: corep_pairs => //= l' [<-].
Qed.
(** The signs of a factor system with values 1 and -1; mu is another name for it, equal on the operations. *)
Definition zi (C : numClosedFieldType) (z : nat -> nat -> C) (i j : nat) : bool := z i j == -1.
Record sign_system (C : numClosedFieldType) (n : nat) (mul : nat -> nat -> nat) (e : nat) (z mu : nat -> nat -> C) : Prop := SignSystem {
  ss_sign : forall i j, (i < n)%N -> (j < n)%N -> z i j = (-1) ^+ zi z i j;
  ss_cocycle : forall i j k, (i < n)%N -> (j < n)%N -> (k < n)%N -> zi z i (mul j k) (+) zi z j k = zi z (mul i j) k (+) zi z i j;
  ss_e : zi z e e = false;
  ss_mu : forall i j, (i < n)%N -> (j < n)%N -> mu i j = z i j }.

Section Signs.
Variables (C : numClosedFieldType) (E : numpy C) (G : trig C) (L : 'M[C]_3).
Variables (rots : list mat) (flags : list bool) (mul : nat -> nat -> nat) (e : nat).
Hypotheses (EO : eig_ok E) (GO : trig_ok G) (LO : lattice_ok L) (LE : size flags = size rots).
Hypothesis PM : forall r, In r rots -> preserves_metric L r.
Hypotheses (LG : lists_magnetic_group (combine rots flags)) (M : mag_multiplication (combine rots flags) mul e).
Local Notation n := (size rots).
Local Notation anti := (anti flags).
Local Notation xsg := (linear_ops rots flags).

(** The signs. *)
Variables (z : nat -> nat -> C) (Us : seq 'M[C]_2).
Hypothesis spin : get_corep_spinor_factor_system E G L rots flags = Ret (z, Us, flags).
Local Notation zi := (zi z).
Lemma cspin_sign i j : (i < n)%N -> (j < n)%N -> z i j = (-1) ^+ zi i j.
Proof.
have [z' [hz zE]] := corep_factor_system EO GO LO LE PM LG M; move: hz; rewrite spin => -[ez _].
rewrite (size_ops LE) -ez in zE; move=> hi hj; rewrite /zi.
have P i' : mag_preserves L (List.nth i' (combine rots flags) (mid, false)) by apply: nth_mag_preserves.
have [h _] := mag_law EO GO LO (P i) (P j); rewrite (zE i j hi hj).
case: h => ->; rewrite ?eqxx ?expr1 //.
by rewrite eq_sym eqr_oppLR -addr_eq0 -mulr2n pnatr_eq0.
Qed.
Lemma cspin_cocycle i j k : (i < n)%N -> (j < n)%N -> (k < n)%N -> zi i (mul j k) (+) zi j k = zi (mul i j) k (+) zi i j.
Proof.
have [z' [hz zE]] := corep_factor_system EO GO LO LE PM LG M; move: hz; rewrite spin => -[ez _].
rewrite (size_ops LE) -ez in zE; move=> hi hj hk.
have P i' : mag_preserves L (List.nth i' (combine rots flags) (mid, false)) by apply: nth_mag_preserves.
have lt a b : (a < n)%N -> (b < n)%N -> (mul a b < n)%N by move=> h1 h2; exact: (lin_mulN LE M h1 h2).
have mm a b : (a < n)%N -> (b < n)%N -> List.nth (mul a b) (combine rots flags) (mid, false) =
    mag_mul (List.nth a (combine rots flags) (mid, false)) (List.nth b (combine rots flags) (mid, false)) by rewrite -(size_ops LE); apply: (mm_mul M).
have : (-1) ^+ (zi i (mul j k) (+) zi j k) = (-1) ^+ (zi (mul i j) k (+) zi i j) :> C.
  rewrite -!sgC_add -(cspin_sign hi (lt j k hj hk)) -(cspin_sign hj hk) -(cspin_sign (lt i j hi hj) hk) -(cspin_sign hi hj).
  rewrite (zE i (mul j k) hi (lt j k hj hk)) (zE j k hj hk) (zE (mul i j) k (lt i j hi hj) hk) (zE i j hi hj) (mm i j hi hj) (mm j k hj hk).
  exact: mag_sign_cocycle.
have n1 : (-1 : C) <> 1 by move/eqP; rewrite eqr_oppLR -addr_eq0 -mulr2n pnatr_eq0.
by move: (zi i _ (+) _) (zi (mul i j) k (+) _) => [] [] //=; rewrite expr1 expr0 => // /esym.
Qed.
Lemma cspin_e : zi e e = false.
Proof.
have [z' [hz zE]] := corep_factor_system EO GO LO LE PM LG M; move: hz; rewrite spin => -[ez _].
rewrite (size_ops LE) -ez in zE; have he := lin_e LE M.
have P i' : mag_preserves L (List.nth i' (combine rots flags) (mid, false)) by apply: nth_mag_preserves.
have Pe := P e; rewrite (mm_id M) in Pe.
rewrite /zi zE // (mm_id M); have [-> _] := mag_sign_id EO GO LO Pe.
by apply/negbTE; rewrite eq_sym eqr_oppLR -addr_eq0 -mulr2n pnatr_eq0.
Qed.
Lemma spin_signs mu : (forall i j, (i < n)%N -> (j < n)%N -> mu i j = z i j) -> sign_system n mul e z mu.
Proof. by move=> h; split=> //; [exact: cspin_sign|exact: cspin_cocycle|exact: cspin_e]. Qed.
End Signs.

Section Outcome.
Variables (C : numClosedFieldType) (E : numpy C).
Variables (rots : list mat) (flags : list bool) (mul : nat -> nat -> nat) (e : nat) (rtol atol : Q).
Hypothesis LE : size flags = size rots.
Hypotheses (LG : lists_magnetic_group (combine rots flags)) (M : mag_multiplication (combine rots flags) mul e).
Hypothesis NO : numpy_ok E rtol atol.
Local Notation n := (size rots).
Local Notation anti := (anti flags).
Local Notation xsg := (linear_ops rots flags).
Local Notation eps := (qC C atol).
Let Gl := lin_group_law LE LG M.
Variables (z mu : nat -> nat -> C).
Hypothesis SS : sign_system n mul e z mu.
Local Notation zi := (zi z).
Let z_sign := ss_sign SS.
Let z_cocycle := ss_cocycle SS.
Let z_e := ss_e SS.
(** ** The linear half *)
Local Notation H := (linear_subgroup LE LG M).
Local Notation gT := (igT Gl).
Local Notation v := (@ival _ _ _ Gl).
Local Notation half := (linear_half (LE := LE) (LG := LG) (M := M)).
Local Notation inx := (in_xsg (LE := LE) (LG := LG) (M := M)).
Local Notation zw := (CorepBridge.w (LE := LE) (LG := LG) (M := M) zi).
Local Notation lft A := (lift (LE := LE) (LG := LG) (M := M) (aget A)).
Let mup p q : C := mu (nth 0%N xsg p) (nth 0%N xsg q).
Lemma mu_sign i j : (i < n)%N -> (j < n)%N -> mu i j = (-1) ^+ zi i j.
Proof. by move=> hi hj; rewrite (ss_mu SS) // z_sign. Qed.
Lemma mu_z i j : (i < n)%N -> (j < n)%N -> mu i j = z i j. Proof. exact: (ss_mu SS). Qed.
Lemma mup_sign p q : (p < size xsg)%N -> (q < size xsg)%N -> mup p q = (-1) ^+ zi (nth 0%N xsg p) (nth 0%N xsg q).
Proof. by move=> /(nth_linear) [hp _] /(nth_linear) [hq _]; apply: mu_sign. Qed.
Lemma mup_fs : ifactor_system (size (linear_rots rots flags)) (linear_mul rots flags mul) (linear_e rots flags e) mup.
Proof.
rewrite size_linear_rots; split.
- move=> i j k hi hj hk; have lm a b : (a < size xsg)%N -> (b < size xsg)%N -> (linear_mul rots flags mul a b < size xsg)%N.
    by move=> ha hb; rewrite /linear_mul index_mem (linear_mul_in LE M).
  rewrite !mup_sign ?lm // !(nth_linear_mul LE M) // !sgC_add z_cocycle //; by have [] := nth_linear hi; have [] := nth_linear hj; have [] := nth_linear hk.
- by move=> i j hi hj; rewrite mup_sign // normrX normrN normr1 expr1n.
have he : (linear_e rots flags e < size xsg)%N by rewrite /linear_e index_mem (e_linear LE M).
by rewrite mup_sign // /linear_e nth_index ?(e_linear LE M) // z_e.
Qed.
Section Irrep.
Variable A : arr C.
Hypothesis rA : iprojrep (size xsg) (linear_mul rots flags mul) (linear_e rots flags e) mup (aget A).
Hypothesis uA : iunitary (size xsg) (aget A).
Lemma lft_rep : projrep (mus (LE := LE) (LG := LG) (M := M) C zi) H (lft A).
Proof.
apply: lift_projrep; case: rA => h1 h2; split=> // i j hi hj; by rewrite h2 // mup_sign.
Qed.
Lemma lft_uni : unirep H (lft A). Proof. exact: lift_unirep. Qed.
Lemma group_half d (F : gT -> 'M[C]_d) (D : nat -> 'M[C]_d) :
  (forall x, x \in H -> D (v x) = F x) -> F 1%g = 1%:M ->
  (forall x y, x \in H -> y \in H -> F x *m F y = (-1) ^+ zw x y *: F (x * y)%g) -> unirep H F ->
  linear_rep n mul e anti z D.
Proof.
move=> DF F1 FM FU; have lin i : linear_op n anti i -> exists2 x, x \in H & v x = i.
  by move=> hi; apply: xsg_elt; rewrite mem_linear.
split.
- by rewrite -(ival1 Gl) DF ?group1.
- move=> i j /lin [x hx <-] /lin [y hy <-]; rewrite -ivalM !DF ?groupM // FM // z_sign ?ival_lt //.
move=> i /lin [x hx <-]; by rewrite DF // FU.
Qed.
End Irrep.

Definition half_near (F : arr C) : Prop := exists2 D : nat -> 'M[C]_(adim F), linear_rep n mul e anti z D &
  forall i, linear_op n anti i -> forall a b, `|aget F i a b - D i a b| <= eps.
Definition unconjugated (a0 : nat) (F : arr C) : Prop := forall u, linear_op n anti u ->
  aget F (mul a0 u) = z a0 u *: (aget F a0 *m aget F u).
Section Structure.
Hypothesis A3 : Qle atol (Qmake 1 3).
Variable A' : arr C.
Local Notation A := (purify_irrep_value E eps A').
Hypothesis oA : aorder A' = size xsg.
Hypothesis rA : iprojrep (size xsg) (linear_mul rots flags mul) (linear_e rots flags e) mup (aget A').
Hypothesis uA : iunitary (size xsg) (aget A').
Let sn := snap eps (special_values E).
Let ce := or_cexp (no_oracles NO).
Let eps0 : 0 <= eps := or_atol (no_oracles NO).
Lemma purified_at p : (p < size xsg)%N -> aget A p = map_mx sn (aget A' p).
Proof. by move=> hp; rewrite /aget /= (nth_map 0) // -/(aorder A') oA. Qed.
Lemma sn_near x : `|sn x - x| <= eps.
Proof. exact: (snap_dist (special_sep ce (atol_third C A3))). Qed.
Lemma sn01 : sn 0 = 0 /\ sn 1 = 1.
Proof. by split; apply: (snap_value (special_sep ce (atol_third C A3))); rewrite !inE eqxx ?orbT. Qed.
Lemma purified_order : aorder A = size xsg.
Proof. by rewrite /aorder /= size_map -/(aorder A'). Qed.
Lemma purified_e : aget A (index e xsg) = 1%:M.
Proof.
rewrite purified_at ?index_mem ?(e_linear LE M) //; have [-> _] := rA; have [s0 s1] := sn01.
by apply/matrixP => i j; rewrite !mxE; case: (i == j)%B => /=; rewrite ?mulr1n ?mulr0n.
Qed.
Variables (a0 inv_a0 : nat).
Hypotheses (a0n : (a0 < n)%N) (aa0 : anti a0) (in0 : (inv_a0 < n)%N) (inv0 : mul inv_a0 a0 = e).
Local Notation gA := (ga LE LG M a0n).
Local Notation cm := (conj_mats rots flags mul mu a0 inv_a0).
Lemma conj_mats_near p a b : (p < size xsg)%N -> `|nth 0 (cm A) p a b - nth 0 (cm A') p a b| <= eps.
Proof.
move=> hp; rewrite !(nth_map 0%N) //; have hu : nth 0%N xsg p \in xsg by apply: mem_nth.
have [x hx ex] := xsg_elt LE LG M hu; have hc : mul inv_a0 (mul (nth 0%N xsg p) a0) \in xsg.
  by rewrite -ex -(v_conj a0n in0 inv0 x) inx (cuH half (gaH LE LG M a0n aa0)).
have [hn _] := nth_linear hp; have := hc; rewrite mem_linear => /andP [hcn _].
have ZE c (B : 'M[C]_(adim A)) : (c *: conj_mx B) a b = c * (B a b)^* by rewrite !mxE.
rewrite !ZE -mulrBr normrM !mu_sign // sgC_inv sgC_add normrX normrN normr1 expr1n mul1r.
rewrite -rmorphB norm_conjC purified_at ?index_mem // [map_mx sn _ _ _]mxE.
exact: sn_near.
Qed.
Lemma conj_e B : aget B (index e xsg) = 1%:M -> nth 0 (cm B) (index e xsg) = 1%:M.
Proof.
move=> h; have -> : e = v 1%g by rewrite (ival1 Gl).
rewrite (conj_matsE mu_sign a0n in0 inv0) ?group1 // /conjrep conj1g /lift (ival1 Gl) h conj_mx1.
have p1 := CorepPipeline.wc (LE := LE) (LG := LG) (M := M) z_cocycle; have p2 := CorepPipeline.w1 LE LG M z_e.
by rewrite /f conj1g (w1x C p1 p2) (wx1 C p1 p2) expr0 scale1r.
Qed.
Lemma z_ae : zi a0 e = false.
Proof.
have p1 := CorepPipeline.wc (LE := LE) (LG := LG) (M := M) z_cocycle; have p2 := CorepPipeline.w1 LE LG M z_e.
by have := wx1 C p1 p2 gA; rewrite /CorepBridge.w (ival1 Gl).
Qed.
Lemma fill_unconj d (K : 'M[C]_d) lin : size lin = size xsg -> nth 0 lin (index e xsg) = 1%:M ->
  let F := fill_corep n mu xsg (a0_ops rots flags mul a0) a0 K lin in
  [/\ aorder F = n, aget F e = 1%:M, aget F a0 = K & unconjugated a0 F].
Proof.
move=> sl l1 F; have ml := made_linear LE M mu a0n aa0 K sl; have an := made_anti LE LG M mu_sign a0n aa0 K sl.
have e1 : aget F e = 1%:M by rewrite ml ?(e_linear LE M).
have Fa : aget F a0 = K.
  have := an _ (e_linear LE M); rewrite -/F e1 mulmx1 (gl_1r _ _ _ Gl _ (ssrnat.ltP a0n)) => ->.
  by rewrite mu_sign ?(lin_e LE M) // z_ae expr0 scale1r.
split=> //; first exact: (made_order LE M mu a0n).
by move=> u hu; rewrite an ?mem_linear // -/F Fa mu_z //; case/andP: hu.
Qed.
Lemma half_plus U : let F := fill_corep n mu xsg (a0_ops rots flags mul a0) a0 U (amats A) in
  [/\ aorder F = n, aget F e = 1%:M, half_near F & unconjugated a0 F].
Proof.
move=> F; have sl : size (amats A) = size xsg := purified_order.
have ml u : u \in xsg -> aget F u = aget A (index u xsg) by apply: (made_linear LE M mu a0n aa0 U sl).
have [h1 h2 _ h3] := fill_unconj U sl purified_e; split=> //.
exists (fun i => aget A' (index i xsg)).
  apply: (@group_half _ (lft A')) => //; [exact: (pr_one (lft_rep rA))|exact: (lin_law (lft_rep rA))|exact: lft_uni].
move=> i hi a b; have hx : i \in xsg by rewrite mem_linear.
rewrite ml // purified_at ?index_mem // mxE; exact: sn_near.
Qed.
Lemma dbl_e B : aorder B = size xsg -> aget B (index e xsg) = 1%:M -> nth 0 (dbl rots flags mul mu a0 inv_a0 B) (index e xsg) = 1%:M.
Proof.
move=> oB h; rewrite nth_dbl ?index_mem ?(e_linear LE M) // h conj_e //.
by rewrite -scalar_mx_block.
Qed.
Lemma half_double K : let F := fill_corep n mu xsg (a0_ops rots flags mul a0) a0 K (dbl rots flags mul mu a0 inv_a0 A) in
  [/\ aorder F = n, aget F e = 1%:M, half_near F & unconjugated a0 F].
Proof.
move=> F; have sl : size (dbl rots flags mul mu a0 inv_a0 A) = size xsg := size_dbl _ _ _ _ purified_order.
have ml u : u \in xsg -> aget F u = nth 0 (dbl rots flags mul mu a0 inv_a0 A) (index u xsg) by apply: (made_linear LE M mu a0n aa0 K sl).
have [h1 h2 _ h3] := fill_unconj K sl (dbl_e purified_order purified_e); split=> //.
have p1 := CorepPipeline.wc (LE := LE) (LG := LG) (M := M) z_cocycle; have p2 := CorepPipeline.w1 LE LG M z_e.
have pD := lft_rep rA; have uD := lft_uni uA.
exists (fun i => nth 0 (dbl rots flags mul mu a0 inv_a0 A') (index i xsg)).
  apply: (@group_half _ (doubled zw gA (lft A'))) => [x hx|||].
  - by rewrite (conj_dbl mu_sign a0n in0 inv0).
  - exact: (doubled1 p1 p2 half (gaH LE LG M a0n aa0) pD).
  - exact: (doubled_lin p1 p2 half (gaH LE LG M a0n aa0) pD).
  move=> x hx; rewrite /doubled /adj map_block_mx tr_block_mx !map_mx0 !trmx0 mulmx_block.
  rewrite !(mul0mx, mulmx0, addr0, add0r).
  have := uD x hx; have := conjrep_uni zw half (gaH LE LG M a0n aa0) uD hx; rewrite /adj => -> ->.
  by rewrite -scalar_mx_block.
move=> i hi a b; have hx : i \in xsg by rewrite mem_linear.
rewrite ml // !nth_dbl ?index_mem ?purified_order //.
rewrite -[a]splitK -[b]splitK; case: (split a) => a'; case: (split b) => b' /=;
  rewrite ?block_mxEul ?block_mxEur ?block_mxEdl ?block_mxEdr ?subrr ?mxE ?subrr ?normr0 //.
- by rewrite purified_at ?index_mem // mxE; exact: sn_near.
by apply: conj_mats_near; rewrite index_mem.
Qed.
Lemma made_structure max_num ind x : made rots flags mul mu a0 inv_a0 E eps max_num ind A x ->
  [/\ aorder x.1 = n, aget x.1 e = 1%:M, half_near x.1 & unconjugated a0 x.1].
Proof.
by case=> [[_ [U -> _]]|[_ [U -> _]]|[_ ->]]; [exact: half_plus|exact: half_double|exact: half_double].
Qed.
(** The indicator. *)
Hypothesis iA : iirreducible (size xsg) (aget A').
Let D (i : nat) := aget A' (index i xsg).
Lemma lft_irr : irreducible H (lft A'). Proof. exact: lift_irreducible. Qed.
Lemma interE X : intertwines H zw gA (lft A') X <-> conj_intertwiner n mul anti z a0 D X.
Proof.
split=> [h u c hu hc E1|h x hx].
  have [x hx ex] : exists2 x, x \in H & v x = u by apply: xsg_elt; rewrite mem_linear.
  have [y hy ey] : exists2 y, y \in H & v y = c by apply: xsg_elt; rewrite mem_linear.
  have xy : (x ^ gA = y)%g by apply: (mulgI gA); rewrite cuE; apply: ival_inj; rewrite !ivalM ex ey.
  have := h x hx; rewrite /lift /conjrep -/(lft A') xy /lift ex ey /D /f xy /CorepBridge.w ex ey v_ga => ->.
  by rewrite !z_sign -?ex -?ey ?ival_lt // sgC_inv sgC_add.
have hc := cuH half (gaH LE LG M a0n aa0) hx.
have lin y : y \in H -> linear_op n anti (v y) by rewrite -inx mem_linear.
have E1 : mul a0 (v (x ^ gA)%g) = mul (v x) a0 by have := congr1 v (cuE gA x); rewrite !ivalM !v_ga.
have := h (v x) (v (x ^ gA)%g) (lin _ hx) (lin _ hc) E1; rewrite /conjrep /f; move: (x ^ gA)%g hc {E1} => y hy.
by rewrite /D /lift /CorepBridge.w !v_ga => ->; rewrite !z_sign ?ival_lt // sgC_inv sgC_add.
Qed.
Lemma kind_of (k : int) : total H zw gA (lft A') = k%:~R * #|H|%:R -> corep_kind n mul anti z a0 D k.
Proof.
have p1 := CorepPipeline.wc (LE := LE) (LG := LG) (M := M) z_cocycle; have p2 := CorepPipeline.w1 LE LG M z_e.
have c0 := cardH_neq0 C H; have zaa : z a0 a0 = (-1) ^+ zw gA gA by rewrite z_sign.
have Ds : D (mul a0 a0) = lft A' (gA * gA)%g by rewrite /D /lift ivalM.
case: (trichotomy p1 p2 half (gaH LE LG M a0n aa0) (lft_rep rA) (lft_uni uA) lft_irr) => [[-> [U [h1 h2 h3]]]|[-> [U [h1 h2 h3]]]|[-> h]] kE.
- have -> : k = 1 by apply: (@intr_inj C); apply: (mulIf c0); rewrite -kE mul1r.
  by apply: Or31; split=> //; exists U; split=> //; [apply/interE|rewrite Ds zaa -h3].
- have -> : k = -1 by apply: (@intr_inj C); apply: (mulIf c0); rewrite -kE rmorphN mulN1r.
  by apply: Or32; split=> //; exists U; split=> //; [apply/interE|rewrite Ds zaa -h3].
have -> : k = 0 by apply: (@intr_inj C); apply: (mulIf c0); rewrite -kE mul0r.
by apply: Or33; split=> // X /interE; apply: h.
Qed.
Lemma total_int : (size xsg)%:R * (adim A')%:R * eps < 2%:R^-1 -> exists k : int,
  np_int E (corep_indicator_sum mu (a0_ops rots flags mul a0) (sq_ops rots flags mul a0) (get_character A)) = k * (size xsg)%:Z /\
  total H zw gA (lft A') = k%:~R * #|H|%:R.
Proof.
move=> small; rewrite (sum_ok LE LG M mu_sign a0n purified_order).
have [t tE] : exists t : int, total H zw gA (lft A') = t%:~R * #|H|%:R.
  have p1 := CorepPipeline.wc (LE := LE) (LG := LG) (M := M) z_cocycle; have p2 := CorepPipeline.w1 LE LG M z_e.
  case: (trichotomy p1 p2 half (gaH LE LG M a0n aa0) (lft_rep rA) (lft_uni uA) lft_irr) => [[-> _]|[-> _]|[-> _]].
  - by exists 1; rewrite mul1r.
  - by exists (-1); rewrite rmorphN mulN1r.
  by exists 0; rewrite mul0r.
have cH : #|H| = size xsg := card_linear LE LG M.
exists t; split=> //; apply: (round_near (no_int NO)).
have -> : (t * (size xsg)%:Z)%:~R = total H zw gA (lft A') by rewrite tE cH rmorphM /= -pmulrn.
apply: le_lt_trans small; rewrite /total -sumrB.
apply: le_trans (ler_norm_sum _ _ _) _.
apply: le_trans (_ : \sum_(x in H) ((adim A')%:R * eps) <= _); last by rewrite sumr_const cH -mulr_natl mulrA.
apply: ler_sum => x hx; rewrite -mulrBr normrM normrX normrN normr1 expr1n mul1r -raddfB /mxtrace.
apply: le_trans (ler_norm_sum _ _ _) _; rewrite -[X in _ <= X%:R * _]card_ord mulr_natl -sumr_const; apply: ler_sum => i _.
have hx2 : (index (v (gA * x * (gA * x))%g) xsg < size xsg)%N by rewrite index_mem inx half eqxx.
rewrite /lift purified_at // !mxE; exact: sn_near.
Qed.
Lemma total_near : (size xsg)%:R * (adim A')%:R * eps < 2%:R^-1 -> forall k : int,
  np_int E (corep_indicator_sum mu (a0_ops rots flags mul a0) (sq_ops rots flags mul a0) (get_character A)) = k * (size xsg)%:Z ->
  total H zw gA (lft A') = k%:~R * #|H|%:R.
Proof.
move=> /total_int [t [tE ->]] k; have cH : #|H| = size xsg := card_linear LE LG M.
have n0 : (size xsg)%:Z != 0 by rewrite -cH; have := cardH_neq0 C H; rewrite pnatr_eq0.
by rewrite tE => /(mulIf n0) ->.
Qed.
Lemma exact_half max_num ind x : (adim A' ^ 2 <= size xsg)%N -> (n ^ 2)%:R * eps < 2%:R^-1 ->
  np_int E (corep_indicator_sum mu (a0_ops rots flags mul a0) (sq_ops rots flags mul a0) (get_character A)) = ind * (size xsg)%:Z ->
  made rots flags mul mu a0 inv_a0 E eps max_num ind A x ->
  [/\ linear_rep n mul e anti z D, linear_irreducible n anti D,
      corep_kind n mul anti z a0 D ind, adim x.1 = (if ind == 1 then adim A' else adim A' + adim A')%N &
      forall u (i j : 'I_(adim A')) (i' j' : 'I_(adim x.1)), linear_op n anti u -> i = i' :> nat -> j = j' :> nat ->
        `|aget x.1 u i' j' - D u i j| <= eps].
Proof.
move=> dA small iE mk; split.
- apply: (@group_half _ (lft A')) => //; [exact: (pr_one (lft_rep rA))|exact: (lin_law (lft_rep rA))|exact: lft_uni].
- case: iA => d0 h; split=> // m W hW; apply: h => p hp.
  by have := hW (nth 0%N xsg p); rewrite /D index_uniq ?uniq_linear //; apply; rewrite /linear_op -mem_linear mem_nth.
- apply: kind_of; apply: total_near iE; apply: le_lt_trans small; rewrite -natrM ler_wpmul2r // ler_nat.
  have sn' : (size xsg <= n)%N by rewrite size_filter (leq_trans (count_size _ _)) ?size_iota.
  by rewrite expnS expn1 leq_mul // (leq_trans _ sn') // (leq_trans _ dA) // expnS expn1 leq_pmull // iA.1.
- by case: mk => [[-> [U ->]]|[-> [U ->]]|[-> ->]].
case: x mk => F b /= mk u i j i' j' hu ei ej; have hx : u \in xsg by rewrite mem_linear.
have hp : (index u xsg < size xsg)%N by rewrite index_mem.
have c : `|aget A (index u xsg) i j - D u i j| <= eps by rewrite purified_at // mxE; exact: sn_near.
have sl : size (dbl rots flags mul mu a0 inv_a0 A) = size xsg := size_dbl _ _ _ _ purified_order.
case: mk i' j' ei ej => [[_ [U /= -> _]]|[_ [U /= -> _]]|[_ /= ->]] i' j' ei ej.
- have -> : i' = i by apply: val_inj. have -> : j' = j by apply: val_inj.
  by rewrite (made_linear LE M mu a0n aa0 _ purified_order).
- have -> : i' = lshift _ i by apply: val_inj. have -> : j' = lshift _ j by apply: val_inj.
  by rewrite (made_linear LE M mu a0n aa0 _ sl) // nth_dbl ?purified_order // block_mxEul.
have -> : i' = lshift _ i by apply: val_inj. have -> : j' = lshift _ j by apply: val_inj.
by rewrite (made_linear LE M mu a0n aa0 _ sl) // nth_dbl ?purified_order // block_mxEul.
Qed.
(** With exact arithmetic, the law of a co-representation. *)
Hypothesis eps_0 : eps = 0.
Lemma exact : A = A'.
Proof.
have sx x : sn x = x by apply/eqP; rewrite -subr_eq0 -normr_le0 -eps_0 sn_near.
case: A' => m l; rewrite /purify_irrep_value /=; congr Arr; rewrite -[RHS]map_id; apply: eq_map => B.
by apply/matrixP => i j; rewrite mxE; exact: sx.
Qed.
Lemma linearP (P : nat -> Prop) : (forall u, linear_op n anti u -> P u) <-> (forall x, x \in H -> P (v x)).
Proof.
split=> [h x hx|h u hu]; first by apply: h; rewrite /linear_op -mem_linear inx.
have [x hx <-] : exists2 x, x \in H & v x = u by apply: xsg_elt; rewrite mem_linear.
exact: h.
Qed.
Lemma lawP (F : arr C) : aget F e = 1%:M ->
  corep n mul e anti z (aget F) <-> forall x y, law_at H zw (fun x => aget F (v x)) x y.
Proof.
have cjE x m (B : 'M[C]_m) : cj H x B = conj_if (anti (v x)) B by rewrite /cj -inx mem_linear /linear_op ival_lt /= negbK.
move=> F1; split=> [[_ h] x y|h].
  by have := h _ _ (ival_lt x) (ival_lt y); rewrite /corep_at /law_at cjE ivalM z_sign ?ival_lt.
split=> // i j /(ival_surj Gl) [x <-] /(ival_surj Gl) [y <-].
by have := h x y; rewrite /corep_at /law_at cjE ivalM z_sign ?ival_lt.
Qed.
Lemma double_blockP d (B : 'M[C]_(d + d)) : double_block B <-> exists X, B = block_mx X 0 0 X.
Proof.
split=> [[d' [Ed [X h]]]|[X ->]]; last by exists d, erefl, X; rewrite castmx_id.
have ed : d' = d by move: (Ed); rewrite !addnn => /double_inj.
subst d'; exists X; by rewrite -h (eq_irrelevance Ed erefl) castmx_id.
Qed.
Lemma made_law max_num ind x : (forall y m, (0 < m)%N -> np_powinv E y m ^+ m = y) -> 
  made rots flags mul mu a0 inv_a0 E eps max_num ind A x -> x.2 ->
  total H zw gA (lft A') = ind%:~R * #|H|%:R ->
  corep n mul e anti z (aget x.1) <->
  forall u, linear_op n anti u -> map_mx conjC (aget x.1 u) = aget x.1 u /\ (ind = -1 -> double_block (aget x.1 u)).
Proof.
move=> powP mk x2 T; have [_ h1 _ un] := made_structure mk.
rewrite (lawP h1) (linearP (fun u => map_mx conjC (aget x.1 u) = aget x.1 u /\ (ind = -1 -> double_block (aget x.1 u)))).
have p1 := CorepPipeline.wc (LE := LE) (LG := LG) (M := M) z_cocycle; have p2 := CorepPipeline.w1 LE LG M z_e.
have pD := lft_rep rA; have uD := lft_uni uA; have iD := lft_irr.
have FA u : u \in H -> aget x.1 (v (gA * u)%g) = (-1) ^+ zw gA u *: (aget x.1 a0 *m aget x.1 (v u)).
  by move=> hu; rewrite ivalM v_ga un /linear_op -?mem_linear ?inx // z_sign ?ival_lt.
case: x mk x2 h1 {un} FA => F b /= mk x2 h1 FA.
have hx u : u \in H -> v u \in xsg by rewrite inx.
rewrite exact in mk; case: mk => /= [[i1 [U xE /(_ x2) EU]]|[i1 [U xE /(_ x2) EU]]|[i1 xE]]; rewrite i1 in T *; subst F.
- have [hU UU] := found_ok mu_sign z_cocycle z_e a0n aa0 in0 inv0 eps0 powP oA pD uD iD EU.
  have [_ _ Fa _] := fill_unconj U oA (pr_one pD); rewrite Fa in FA.
  rewrite mul1r in T; rewrite (built_plus p1 p2 half (gaH LE LG M a0n aa0) pD uD iD UU hU T _ FA) => [|u /hx hu]; last first.
    by rewrite (made_linear LE M mu a0n aa0 U oA).
  by split=> h u hu; [split; first exact: h|have [] := h u hu].
- have [hU UU] := found_ok mu_sign z_cocycle z_e a0n aa0 in0 inv0 eps0 powP oA pD uD iD EU.
  have sl : size (dbl rots flags mul mu a0 inv_a0 A') = size xsg := size_dbl _ _ _ _ oA.
  have [_ _ Fa _] := fill_unconj (offm U) sl (dbl_e oA (pr_one pD)); rewrite Fa in FA.
  rewrite rmorphN mulN1r in T; rewrite (built_minus p1 p2 half (gaH LE LG M a0n aa0) pD uD iD UU hU T _ FA) => [|u hu]; last first.
    by rewrite (made_linear LE M mu a0n aa0 _ sl) ?hx // (conj_dbl mu_sign a0n in0 inv0).
  split=> h u hu; have [h2 h3] := h u hu; split=> //; first by move=> _; apply/double_blockP.
  by apply/double_blockP/h3.
have sl : size (dbl rots flags mul mu a0 inv_a0 A') = size xsg := size_dbl _ _ _ _ oA.
have [_ _ Fa _] := fill_unconj (off0 zw gA (lft A')) sl (dbl_e oA (pr_one pD)).
have K0 : off0 zw gA (lft A') = block_mx 0 (mu a0 a0 *: aget A' (index (mul a0 a0) xsg)) 1%:M 0.
  by rewrite /off0 /lift ivalM v_ga mu_sign // /CorepBridge.w v_ga.
rewrite K0 in Fa; rewrite Fa in FA; rewrite -K0 in FA *.
rewrite (built_zero p1 p2 half (gaH LE LG M a0n aa0) pD uD _ FA) => [|u hu]; last first.
  by rewrite (made_linear LE M mu a0n aa0 _ sl) ?hx // (conj_dbl mu_sign a0n in0 inv0).
by split=> h u hu; [split; first exact: h|have [] := h u hu].
Qed.
End Structure.

End Outcome.

(** ** What the function returned, for any translations and any k *)
Section Returned.
Variables (C : numClosedFieldType) (E : numpy C) (G : trig C) (L : 'M[C]_3).
Variables (rots : list mat) (trans : list vec) (flags : list bool) (k : vec) (mul : nat -> nat -> nat) (e : nat) (rtol atol : Q).
Hypotheses (LE : size flags = size rots) (sT : size trans = size rots).
Hypotheses (LG : lists_magnetic_group (combine rots flags)) (M : mag_multiplication (combine rots flags) mul e).
Local Notation n := (size rots).
Local Notation anti := (anti flags).
Local Notation xsg := (linear_ops rots flags).
Local Notation eps := (qC C atol).
Let Gl := lin_group_law LE LG M.
Variables (z : nat -> nat -> C) (Us : seq 'M[C]_2).
Hypothesis spin : get_corep_spinor_factor_system E G L rots flags = Ret (z, Us, flags).
Lemma corep_raw method max_num r :
  has id flags ->
  enumerate_spinor_small_corepresentations E G L rots trans flags k method rtol atol max_num = COk r ->
  exists a0 inv_a0 raw chosen, [/\ (a0 < n)%N /\ anti a0, (inv_a0 < n)%N /\ mul inv_a0 a0 = e,
    [/\ enumerate_unitary_irreps E (linear_rots rots flags)
        (fun i j => z (nth 0%N xsg i) (nth 0%N xsg j) * little_factor_system E rots trans k (nth 0%N xsg i) (nth 0%N xsg j))
        false method rtol atol max_num = COk raw,
      let mu i j := z i j * little_factor_system E rots trans k i j in
      corep_pairs E mu (a0_ops rots flags mul a0) (sq_ops rots flags mul a0) (size xsg) [seq get_character A | A <- raw.1.1]
        [seq get_character_mats (conj_mats rots flags mul mu a0 inv_a0 A) | A <- raw.1.1]
        (iota 0 (size raw.1.1)) (nseq (size raw.1.1) false) = COk chosen &
      size chosen = size (co_irreps r)],
    [/\ co_factors r = z, co_rotations r = Us, co_anti_linear r = flags, size (co_indicators r) = size (co_irreps r) &
        (co_ok r -> raw.2) /\ ((0 < size raw.1.1)%N -> (0 < size (co_irreps r))%N)] &
    forall m, (m < size (co_irreps r))%N -> exists x : arr C * bool,
      let mu i j := z i j * little_factor_system E rots trans k i j in
      let i := (nth (0 : int, 0%N) chosen m).2 in let A := arr_nth raw.1.1 i in
      [/\ (i < size raw.1.1)%N, arr_nth (co_irreps r) m = apply_phases E trans k x.1, co_ok r -> x.2,
       np_int E (corep_indicator_sum mu (a0_ops rots flags mul a0) (sq_ops rots flags mul a0) (get_character A)) = nth 0 (co_indicators r) m * (size xsg)%:Z &
       made rots flags mul mu a0 inv_a0 E eps max_num (nth 0 (co_indicators r) m) A x]].
Proof.
move=> hs; rewrite /enumerate_spinor_small_corepresentations.
have -> : forallb negb flags = false.
  apply/negbTE; apply/negP => /forallb_forall h; move/hasP: hs => [b /In_mem /h /= /negbTE nb hb].
  by rewrite /id nb in hb.
have nall : ~~ all id flags.
  apply/negP => /allP h; have [_] := lin_id LE M; rewrite /CorepBridge.anti.
  by rewrite (h (nth false flags e)) // mem_nth // LE (lin_e LE M).
have [tri [a0 [-> a0n aa0]]] := decompose_shape sT LE nall hs.
rewrite /= spin /=; set mu := fun i j => z i j * _.
case ER: (enumerate_unitary_irreps _ _ _ _ _ _ _ _) => [raw| | |] //=.
have [t ht] := cayley_total (combine rots flags) (mg_mul _ LG).
rewrite ht /=; have tE i j : (i < n)%N -> (j < n)%N -> tget t i j = mul i j by rewrite -(size_ops LE); apply: (mag_table LG M ht).
have W : wf_table n t by have [h1 [h2 _]] := cayley_spec _ _ ht; rewrite -(size_ops LE).
have G2 : group_law n (tget t) e.
  by apply: group_law_ext Gl => i j hi hj; rewrite tE.
have [inv_a0 [-> [/ssrnat.ltP in0 [_ inv0]]]] := inverse_index_correct _ _ _ _ W G2 (ssrnat.ltP a0n).
rewrite tE // in inv0.
rewrite /= -/(linear_ops rots flags) (a0u_ok flags tE a0n).
rewrite (cmap_all (g := fun A => existT (fun A : arr C => seq 'M[C]_(adim A)) A (conj_mats rots flags mul mu a0 inv_a0 A))); last first.
  by move=> A; rewrite (conjugated_ok LE LG M mu tE a0n aa0 in0 inv0).
rewrite [cbind (COk _) _]/= (squares_ok LE M tE a0n) [cbind (COk _) _]/=.
case EP: corep_pairs => [chosen| | |] //=; case EC: (cmap _ chosen) => [coreps| | |] //= [<-].
have [sC hC] := cmap_nth (0, 0%N) (@Arr C 0 [::], false) EC.
exists a0, inv_a0, raw, chosen; split=> //.
  split=> //; first by move: EP; rewrite -!map_comp.
  by rewrite /co_irreps /= size_map sC.
  split=> //; first by rewrite /co_indicators /co_irreps /= !size_map.
  split=> [|s0]; first by rewrite /co_ok /= => /andP [].
  rewrite /co_irreps /= size_map sC; exact: (pairs_some EP).
rewrite /co_irreps /co_indicators /co_ok /= size_map => m hm; have hm' : (m < size chosen)%N by rewrite -sC.
have [hi hn] := pairs_sound EP (mem_nth (0, 0%N) hm'); rewrite mem_iota add0n /= in hi.
have := hC m hm'; rewrite (nth_map (@Arr C 0 [::])) // [projT2 _]/= => /(make_ok LE M tE a0n aa0) mk.
exists (nth (@Arr C 0 [::], false) coreps m); rewrite (nth_map (0, 0%N)) //; split=> //.
- by rewrite /arr_nth (nth_map (@Arr C 0 [::], false)).
- by move=> /andP [_ /(all_nthP (@Arr C 0 [::], false)) h]; apply: h.
by move: hn; rewrite (nth_map (@Arr C 0 [::])).
Qed.

(** In terms of exact irreducible representations of the unitary half. *)
Hypothesis NO : numpy_ok E rtol atol.
Hypothesis A3 : Qle atol (Qmake 1 3).
Let mu i j : C := z i j * little_factor_system E rots trans k i j.
Let mup p q : C := mu (nth 0%N xsg p) (nth 0%N xsg q).
Variable z' : nat -> nat -> C.
Hypothesis SS : sign_system n mul e z' mu.
Lemma corep_inv method max_num r : method_ok E (linear_rots rots flags) method -> has id flags ->
  enumerate_spinor_small_corepresentations E G L rots trans flags k method rtol atol max_num = COk r ->
  exists a0 inv_a0, [/\ (a0 < n)%N /\ anti a0, (inv_a0 < n)%N /\ mul inv_a0 a0 = e,
    [/\ co_factors r = z, co_rotations r = Us, co_anti_linear r = flags, size (co_indicators r) = size (co_irreps r) &
        (co_ok r -> (0 < size (co_irreps r))%N)] &
    forall m, (m < size (co_irreps r))%N -> exists A' (x : arr C * bool),
      let A := purify_irrep_value E eps A' in
      [/\ [/\ aorder A' = size xsg, iprojrep (size xsg) (linear_mul rots flags mul) (linear_e rots flags e) mup (aget A'),
         iunitary (size xsg) (aget A'), iirreducible (size xsg) (aget A') & (adim A' ^ 2 <= size xsg)%N],
       arr_nth (co_irreps r) m = apply_phases E trans k x.1, co_ok r -> x.2,
       np_int E (corep_indicator_sum mu (a0_ops rots flags mul a0) (sq_ops rots flags mul a0) (get_character A)) = nth 0 (co_indicators r) m * (size xsg)%:Z &
       made rots flags mul mu a0 inv_a0 E eps max_num (nth 0 (co_indicators r) m) A x]].
Proof.
move=> mok hs /(corep_raw hs) [a0 [inv_a0 [raw [chosen [[a0n aa0] [in0 inv0] [Er _ _] shapes h]]]]].
have := unitary_outcome NO A3 (linear_group LE LG M) (linear_multiplication LE M) max_num (mup_fs LE M SS) mok.
rewrite /= /mup /mu Er => -[[//]|[[rE] _]|[Ls [cl [_ [[[rE] _]|[//]]]]]].
  have [s1 s2 s3 s4 [s5 _]] := shapes; exists a0, inv_a0; split=> //; first by split=> // /s5; rewrite rE.
  by move=> m /h [x []]; rewrite rE.
exists a0, inv_a0; split=> //.
  have [s1 s2 s3 s4 [_ s5]] := shapes; split=> // _; apply: s5; rewrite rE /= size_map.
  case: (posnP (size Ls)) => // L0; have := ci_squares cl.2; rewrite L0 big_ord0 size_linear_rots => x0.
  by have := e_linear LE M; rewrite -index_mem -x0.
move=> m hm; have [x] := h m hm; move: (nth _ chosen m).2 => i /= [hi xE x2 iE mk].
rewrite rE /= size_map in hi; rewrite rE /= /arr_nth (nth_map (@Arr C 0 [::])) // -/(arr_nth Ls i) in iE mk.
have [ol ci] := cl; rewrite size_linear_rots in ol ci.
have [oA rA uA iA] := And4 (ol i hi) (ci_rep ci hi) (ci_unitary ci hi) (ci_irreducible ci hi).
exists (arr_nth Ls i), x; split=> //.
by split=> //; have := ci_squares ci; rewrite (bigD1 (Ordinal hi)) //= => <-; exact: leq_addr.
Qed.
End Returned.


(** ** Zero translations at k = 0 *)
Section Point.
Variables (C : numClosedFieldType) (E : numpy C) (rots : list mat) (rtol atol : Q).
Hypothesis NO : numpy_ok E rtol atol.
Local Notation n := (size rots).
Let T0 := List.map (fun _ => vzero) rots.
Lemma nth_T0 i : List.nth i T0 vzero = vzero.
Proof. by rewrite /T0; elim: rots i => [|x l IH] [|i] /=. Qed.
Lemma little1 i j : little_factor_system E rots T0 vzero i j = 1.
Proof.
apply/(ce_int (or_cexp (no_oracles NO))); exists Z0; rewrite /factor_phase nth_T0 /vdot /vzero /=.
rewrite -[inject_Z 0]/(Qmake 0 1); ring.
Qed.
Lemma phases1 (A : arr C) : aorder A = n -> apply_phases E T0 vzero A = A.
Proof.
case: A => d ms; rewrite /aorder /= => h; rewrite /apply_phases /=; congr Arr.
have one x : x = vzero -> np_exp E (Qopp (vdot vzero x)) = 1.
  by move=> ->; apply/(ce_int (or_cexp (no_oracles NO))); exists Z0; rewrite /vdot /=.
rewrite /T0; elim: rots ms h => [|r l IH] [|m ms] //= [h]; by rewrite one // scale1r IH.
Qed.
End Point.
Lemma point_size (rots : list mat) : size (List.map (fun _ : mat => vzero) rots) = size rots.
Proof. by rewrite -[LHS]/(List.length _) map_length. Qed.
