(** Proofs about CorepModel: enumerate_spinor_small_corepresentations at any k, as long as the
    phases exp(-2 pi i k.w) are 1 or -1. *)
From Coq Require Import QArith ZArith List String.
From mathcomp Require Import all_ssreflect all_algebra all_fingroup.
From Verif Require Import Py Mat3 MatQ GroupModel GroupSpec GroupProofs RepSpec RepModel RepTheory RepProofs Mx2 IndexRepSpec IndexGroup
  CExpSpec ChainModel ChainTheory SmallModel SmallSpec SmallTheory SpinorModel SpinorSpec SpinorTheory SpinorProofs SpinorConv CorepModel CorepSpec CorepProofs
  CorepTheory CorepKinds CorepBridge CorepPipeline CorepOutcome PurifyTheory RobustTheory ClaimsChain CorepIrr CorepCover CorepFull.
Import Order.TTheory GRing.Theory Num.Theory.
Set Implicit Arguments.
Unset Strict Implicit.
Unset Printing Implicit Defensive.
Local Open Scope ring_scope.

(** ** A change of signs of the operators *)
Section Gauge.
Variables (C : numClosedFieldType) (n : nat) (mul : nat -> nat -> nat) (e : nat) (anti : nat -> bool) (c : nat -> C).
Record sign_gauge (nu mu : nat -> nat -> C) : Prop := SignGauge {
  sg_lt : forall i j, (i < n)%N -> (j < n)%N -> (mul i j < n)%N;
  sg_e : (e < n)%N;
  sg_one : c e = 1;
  sg_sign : forall i, (i < n)%N -> c i = 1 \/ c i = -1;
  sg_gauge : forall i j, (i < n)%N -> (j < n)%N -> nu i j * c (mul i j) = c i * c j * mu i j }.
Section One.
Variables nu mu : nat -> nat -> C.
Hypothesis SG : sign_gauge nu mu.
Lemma c2 i : (i < n)%N -> c i * c i = 1.
Proof. by move=> /(sg_sign SG) [] ->; rewrite ?mulrNN mulr1. Qed.
Lemma cr i : (i < n)%N -> (c i)^* = c i.
Proof. by move=> /(sg_sign SG) [] ->; rewrite ?rmorphN rmorph1. Qed.
Lemma c0 i : (i < n)%N -> c i != 0.
Proof. by move=> /(sg_sign SG) [] ->; rewrite ?oppr_eq0 oner_eq0. Qed.
Lemma cV i : (i < n)%N -> (c i)^-1 = c i.
Proof. by move=> /(sg_sign SG) [] ->; rewrite ?invrN invr1. Qed.
Lemma gauge_sym : sign_gauge mu nu.
Proof.
case: (SG) => h1 h2 h3 h4 h5; split=> // i j hi hj; apply: (mulIf (c0 (h1 i j hi hj))).
by rewrite -!mulrA c2 ?h1 // mulr1 h5 // !mulrA -[c i * c j * c i]mulrAC c2 // mul1r c2 // mul1r.
Qed.
Definition regauge d (X : nat -> 'M[C]_d) (i : nat) : 'M[C]_d := c i *: X i.
Lemma gauge_nu i j : (i < n)%N -> (j < n)%N -> nu i j = c i * c j * c (mul i j) * mu i j.
Proof.
move=> hi hj; have h := sg_lt SG hi hj; apply: (mulIf (c0 h)); rewrite (sg_gauge SG) //.
by rewrite [RHS]mulrAC -[c i * c j * c (mul i j) * c (mul i j)]mulrA c2 // mulr1.
Qed.
Lemma conj_regauge b d (X : nat -> 'M[C]_d) i : (i < n)%N -> conj_if b (regauge X i) = c i *: conj_if b (X i).
Proof. by move=> hi; case: b => //=; rewrite /regauge map_mxZ /= cr. Qed.
Lemma gauge_corep d (X : nat -> 'M[C]_d) : corep n mul e anti mu X -> corep n mul e anti nu (regauge X).
Proof.
move=> [X1 XM]; split; first by rewrite /regauge (sg_one SG) scale1r.
move=> i j hi hj; rewrite /corep_at conj_regauge // -scalemxAl -scalemxAr XM // !scalerA; congr (_ *: _).
by rewrite -(sg_gauge SG).
Qed.
Let lin i : linear_op n anti i -> (i < n)%N. Proof. by case/andP. Qed.
Lemma gauge_linear_rep d (X : nat -> 'M[C]_d) : linear_rep n mul e anti mu X -> linear_rep n mul e anti nu (regauge X).
Proof.
move=> [X1 XM XU]; split; first by rewrite /regauge (sg_one SG) scale1r.
  move=> i j hi hj; rewrite -scalemxAl -scalemxAr XM // !scalerA; congr (_ *: _).
  by rewrite -(sg_gauge SG) ?lin.
move=> i hi; rewrite /regauge /adj map_mxZ linearZ -scalemxAl -scalemxAr scalerA /= cr ?lin // c2 ?lin // scale1r; exact: XU.
Qed.
Lemma gauge_inv m d (W : 'M[C]_(d, m)) (A : 'M[C]_d) (V : 'M[C]_(d, m)) i : (i < n)%N ->
  (exists Y, (c i *: A) *m V = W *m Y) -> exists Y, A *m V = W *m Y.
Proof.
move=> hi [Y EY]; exists (c i *: Y); rewrite -scalemxAr -EY -scalemxAl scalerA c2 // scale1r //.
Qed.
Lemma gauge_linear_irr d (X : nat -> 'M[C]_d) : linear_irreducible n anti X -> linear_irreducible n anti (regauge X).
Proof. by move=> [d0 h]; split=> // m W hW; apply: h => i hi; apply: (gauge_inv (lin hi)); apply: hW. Qed.
Lemma gauge_corep_irr d (X : nat -> 'M[C]_d) : corep_irreducible n anti X -> corep_irreducible n anti (regauge X).
Proof. by move=> [d0 h]; split=> // m W hW; apply: h => i hi; apply: (gauge_inv hi); apply: hW. Qed.
Lemma gauge_linear_eqv d1 d2 (X : nat -> 'M[C]_d1) (D : nat -> 'M[C]_d2) :
  linear_equivalent n anti X D -> linear_equivalent n anti (regauge X) (regauge D).
Proof.
by move=> [T [T' [h1 h2 h3]]]; exists T, T'; split=> // u hu; rewrite /regauge -scalemxAl -scalemxAr h3.
Qed.
Lemma gauge_corep_eqv d1 d2 (X : nat -> 'M[C]_d1) (D : nat -> 'M[C]_d2) :
  corep_equivalent n anti X D -> corep_equivalent n anti (regauge X) (regauge D).
Proof.
by move=> [T [T' [h1 h2 h3]]]; exists T, T'; split=> // u hu; rewrite /regauge -scalemxAl -scalemxAr h3.
Qed.
Variable a : nat.
Hypothesis an : (a < n)%N.
Lemma gauge_ratio u x : (u < n)%N -> (x < n)%N -> mul a x = mul u a -> nu u a / nu a x * c x = c u * (mu u a / mu a x).
Proof.
move=> hu hx E1; rewrite !gauge_nu // E1.
case: (sg_sign SG hu) (sg_sign SG hx) (sg_sign SG an) (sg_sign SG (sg_lt SG hu an)) => -> [] -> [] -> [] ->;
  by rewrite ?(mul1r, mulr1, mulNr, mulrN, invrN, opprK).
Qed.
Lemma gauge_inter d (X : nat -> 'M[C]_d) U : conj_intertwiner n mul anti mu a X U -> conj_intertwiner n mul anti nu a (regauge X) U.
Proof.
move=> h u x hu hx E1; rewrite /regauge map_mxZ /= cr ?lin // scalerA gauge_ratio ?lin // -scalerA -scalemxAl -scalemxAr.
by rewrite (h u x).
Qed.
Lemma gauge_conj_eqv d1 d2 (X : nat -> 'M[C]_d1) (D : nat -> 'M[C]_d2) :
  conj_equivalent n mul anti mu a X D -> conj_equivalent n mul anti nu a (regauge X) (regauge D).
Proof.
move=> [T [T' [h1 h2 h3]]]; exists T, T'; split=> // u x hu hx E1; rewrite /regauge map_mxZ /= cr ?lin // scalerA gauge_ratio ?lin //.
by rewrite -scalerA -scalemxAl -scalemxAr (h3 u x).
Qed.
End One.
Lemma regaugeK d (X : nat -> 'M[C]_d) nu mu i : sign_gauge nu mu -> (i < n)%N -> regauge (regauge X) i = X i.
Proof. by move=> SG hi; rewrite /regauge scalerA (c2 SG) // scale1r. Qed.
Lemma gauge_kind nu mu a d (X : nat -> 'M[C]_d) v : sign_gauge nu mu -> (a < n)%N ->
  corep_kind n mul anti mu a X v -> corep_kind n mul anti nu a (regauge X) v.
Proof.
move=> SG an; have aa := sg_lt SG an an.
have sq : nu a a *: regauge X (mul a a) = mu a a *: X (mul a a).
  rewrite (gauge_nu SG) // /regauge scalerA (c2 SG) // mul1r mulrAC (c2 SG) // mul1r //.
case=> [[-> [U [h1 h2 h3]]]|[-> [U [h1 h2 h3]]]|[-> h]].
- by apply: Or31; split=> //; exists U; rewrite sq; split=> //; apply: (gauge_inter SG an).
- by apply: Or32; split=> //; exists U; rewrite sq; split=> //; apply: (gauge_inter SG an).
apply: Or33; split=> // Y hY; apply: h => u x hu hx E1.
have := gauge_inter (gauge_sym SG) an hY hu hx E1.
have [hu' hx'] : (u < n)%N /\ (x < n)%N by case/andP: hu => ->; case/andP: hx => ->.
by rewrite !(regaugeK _ SG).
Qed.
(** Functions equal on the operations. *)
Lemma corep_eq nu d (X Y : nat -> 'M[C]_d) : (forall i j, (i < n)%N -> (j < n)%N -> (mul i j < n)%N) -> (e < n)%N ->
  (forall i, (i < n)%N -> X i = Y i) -> corep n mul e anti nu X -> corep n mul e anti nu Y.
Proof. by move=> lt en h [X1 XM]; split=> [|i j hi hj]; rewrite /corep_at -?h ?lt //; apply: XM. Qed.
Lemma corep_irr_eq d (X Y : nat -> 'M[C]_d) : (forall i, (i < n)%N -> X i = Y i) ->
  corep_irreducible n anti X -> corep_irreducible n anti Y.
Proof. by move=> h [d0 hX]; split=> // m W hW; apply: hX => i hi; rewrite h //; apply: hW. Qed.
Lemma corep_eqv_eq d1 d2 (X X' : nat -> 'M[C]_d1) (Y Y' : nat -> 'M[C]_d2) : (forall i, (i < n)%N -> X i = X' i) ->
  (forall i, (i < n)%N -> Y i = Y' i) -> corep_equivalent n anti X Y -> corep_equivalent n anti X' Y'.
Proof. by move=> hX hY [T [T' [h1 h2 h3]]]; exists T, T'; split=> // i hi; rewrite -hX // -hY // h3. Qed.
Lemma linear_rep_eq nu d (X Y : nat -> 'M[C]_d) : (forall i j, linear_op n anti i -> linear_op n anti j -> (mul i j < n)%N) -> (e < n)%N ->
  (forall i, (i < n)%N -> X i = Y i) -> linear_rep n mul e anti nu X -> linear_rep n mul e anti nu Y.
Proof.
move=> lt en h [X1 XM XU]; have lin i : linear_op n anti i -> (i < n)%N by case/andP.
split=> [|i j hi hj|i hi]; first by rewrite -h.
  by rewrite -!h ?lt ?lin //; apply: XM.
by rewrite -h ?lin //; apply: XU.
Qed.
Lemma linear_eqv_eq d1 d2 (X X' : nat -> 'M[C]_d1) (Y Y' : nat -> 'M[C]_d2) : (forall i, (i < n)%N -> X i = X' i) ->
  (forall i, (i < n)%N -> Y i = Y' i) -> linear_equivalent n anti X Y -> linear_equivalent n anti X' Y'.
Proof.
by move=> hX hY [T [T' [h1 h2 h3]]]; exists T, T'; split=> // i hi; case/andP: (hi) => hi' _; rewrite -hX // -hY // h3.
Qed.
Lemma conj_eqv_eq nu a d1 d2 (X X' : nat -> 'M[C]_d1) (Y Y' : nat -> 'M[C]_d2) : (forall i, (i < n)%N -> X i = X' i) ->
  (forall i, (i < n)%N -> Y i = Y' i) -> conj_equivalent n mul anti nu a X Y -> conj_equivalent n mul anti nu a X' Y'.
Proof.
move=> hX hY [T [T' [h1 h2 h3]]]; exists T, T'; split=> // u x hu hx E1; case/andP: (hu) => hu' _; case/andP: (hx) => hx' _.
by rewrite -hX // -hY // (h3 u x).
Qed.
Lemma sign_gauge_signs nu mu : sign_gauge nu mu -> sign_system n mul e nu nu ->
  (forall i j k, (i < n)%N -> (j < n)%N -> (k < n)%N -> mul (mul i j) k = mul i (mul j k)) -> (mul e e = e) -> sign_system n mul e mu mu.
Proof.
move=> SG NS assoc ee; have SG' := gauge_sym SG; have n1 : eq_op (-1 : C) 1 = false by rewrite eqr_oppLR -addr_eq0 -mulr2n pnatr_eq0.
have ms i j : (i < n)%N -> (j < n)%N -> exists b : bool, mu i j = (-1) ^+ b /\ zi mu i j = b.
  move=> hi hj; suff [b bE] : exists b : bool, mu i j = (-1) ^+ b.
    by exists b; split=> //; rewrite /zi bE; case: b {bE}; rewrite ?expr1 ?expr0 ?eqxx // eq_sym n1.
  rewrite (gauge_nu SG') // (ss_sign NS) //.
  case: (sg_sign SG hi) (sg_sign SG hj) (sg_sign SG (sg_lt SG hi hj)) => -> [] -> [] ->; case: (zi nu i j); rewrite ?expr1 ?expr0 ?mulrNN ?mulrN1 ?mulr1 ?opprK;
    by [exists false|exists true].
have sg i j : (i < n)%N -> (j < n)%N -> mu i j = (-1) ^+ zi mu i j by move=> hi hj; have [b [-> ->]] := ms i j hi hj.
split=> //.
  move=> i j k hi hj hk; have [hij hjk] := (sg_lt SG hi hj, sg_lt SG hj hk).
  suff : (-1) ^+ (zi mu i (mul j k) (+) zi mu j k) = (-1) ^+ (zi mu (mul i j) k (+) zi mu i j) :> C.
    by move: (_ (+) _) (_ (+) zi mu i j) => [] [] //=; rewrite expr1 expr0 => /eqP; rewrite ?n1 // eq_sym n1.
  rewrite -!sgC_add -!sg // !(gauge_nu SG') // assoc //.
  have := ss_cocycle NS hi hj hk => /(congr1 (fun b : bool => (-1 : C) ^+ b)); rewrite -!sgC_add -!(ss_sign NS) // => E1.
  transitivity (c i * c (mul i (mul j k)) * c j * c k * (nu i (mul j k) * nu j k)).
    by case: (sg_sign SG hi) (sg_sign SG hj) (sg_sign SG hk) (sg_sign SG hjk) (sg_sign SG (sg_lt SG hi hjk)) => -> [] -> [] -> [] -> [] ->;
      rewrite ?(mul1r, mulr1, mulNr, mulrN, opprK).
  rewrite E1; have := sg_sign SG (sg_lt SG hij hk); rewrite assoc // => s5.
  by case: (sg_sign SG hi) (sg_sign SG hj) (sg_sign SG hk) (sg_sign SG hij) s5 => -> [] -> [] -> [] -> [] ->;
      rewrite ?(mul1r, mulr1, mulNr, mulrN, opprK).
have he := sg_e SG; rewrite /zi (gauge_nu SG') // ee !(sg_one SG) !mul1r; exact: (ss_e NS).
Qed.
End Gauge.

(** ** The returned matrices *)
Section Result.
Variables (C : numClosedFieldType) (E : numpy C) (G : trig C) (L : 'M[C]_3).
Variables (rots : list mat) (trans : list vec) (flags : list bool) (k : vec) (mul : nat -> nat -> nat) (e : nat) (rtol atol : Q).
Hypotheses (LE : size flags = size rots) (sT : size trans = size rots).
Hypotheses (LG : lists_magnetic_group (combine rots flags)) (M : mag_multiplication (combine rots flags) mul e).
Hypotheses (NO : numpy_ok E rtol atol) (A3 : Qle atol (Qmake 1 3)).
Local Notation n := (size rots).
Local Notation anti := (anti flags).
Local Notation xsg := (linear_ops rots flags).
Local Notation eps := (qC C atol).
Let Gl := lin_group_law LE LG M.
Variables (z : nat -> nat -> C) (Us : seq 'M[C]_2).
Hypothesis spin : get_corep_spinor_factor_system E G L rots flags = Ret (z, Us, flags).
Let mu i j : C := z i j * little_factor_system E rots trans k i j.
Let c i : C := np_exp E (Qopp (vdot k (List.nth i trans vzero))).
Variable nu : nat -> nat -> C.
Hypothesis NS : sign_system n mul e nu nu.
Hypothesis SG : sign_gauge n mul e c nu mu.
Lemma mu_signs : sign_system n mul e mu mu.
Proof.
have lt := fun i (h : (i < n)%N) => ssrnat.ltP h.
apply: (sign_gauge_signs SG NS) => [i j l hi hj hl|]; first by have := gl_assoc _ _ _ Gl i j l (lt _ hi) (lt _ hj) (lt _ hl).
exact: (gl_1l _ _ _ Gl _ (lt _ (lin_e LE M))).
Qed.
Let MS := mu_signs.
Let SG' := gauge_sym SG.
Variables (method : string) (max_num : nat) (r : corep_result C).
Hypotheses (mok : method_ok E (linear_rots rots flags) method) (hs : has id flags).
Hypothesis res : enumerate_spinor_small_corepresentations E G L rots trans flags k method rtol atol max_num = COk r.
Lemma phased (A : arr C) i : aorder A = n -> (i < n)%N -> aget (apply_phases E trans k A) i = c i *: aget A i.
Proof. by move=> oA hi; rewrite apply_phases_nth ?oA ?sT. Qed.
Lemma phased_order (A : arr C) : aorder A = n -> aorder (apply_phases E trans k A) = n.
Proof. by move=> oA; rewrite /aorder /apply_phases /= size_map size_zip -/(aorder _) oA sT minnn. Qed.
Lemma phased_eq (A : arr C) i : aorder A = n -> (i < n)%N -> aget A i = regauge c (aget (apply_phases E trans k A)) i.
Proof. by move=> oA hi; rewrite /regauge phased // scalerA (c2 SG) // scale1r. Qed.
Let lin i : linear_op n anti i -> (i < n)%N. Proof. by case/andP. Qed.
Let cn i : (i < n)%N -> `|c i| = 1. Proof. by move=> /(sg_sign SG) [] ->; rewrite ?normrN normr1. Qed.

Lemma gen_structure : co_factors r = z /\ (co_ok r -> (0 < size (co_irreps r))%N) /\
  exists a0, [/\ (a0 < n)%N, anti a0 & forall m, (m < size (co_irreps r))%N -> let F := arr_nth (co_irreps r) m in
    [/\ aorder F = n /\ aget F e = 1%:M,
        exists2 D, linear_rep n mul e anti nu D & forall u, linear_op n anti u -> forall i j, `|aget F u i j - D u i j| <= eps,
        forall u, linear_op n anti u -> aget F (mul a0 u) = nu a0 u *: (aget F a0 *m aget F u) &
        forall u, linear_op n anti u ->
          corep_at mul anti nu (aget F) a0 u <-> aget F a0 *m map_mx conjC (aget F u) = aget F a0 *m aget F u]].
Proof.
have [a0 [inv_a0 [[a0n aa0] [in0 inv0] [zE _ _ _ ok0] h]]] := corep_inv LE sT LG M spin NO A3 MS mok hs res.
split=> //; split=> //; exists a0; split=> // m hm F; have [A' [x [[oA rA uA iA dA] Fx x2 iE mk]]] := h m hm.
have [h1 h2 [D hD nD] un] := made_structure LE LG M NO MS A3 oA rA uA a0n aa0 in0 inv0 mk.
rewrite /F Fx => {F}; set F := apply_phases E trans k x.1.
have FE i : (i < n)%N -> aget F i = c i *: aget x.1 i := @phased x.1 i h1.
have en := lin_e LE M; have lt u : linear_op n anti u -> (mul a0 u < n)%N by move=> /lin hu; exact: (sg_lt SG).
have un' u : linear_op n anti u -> aget F (mul a0 u) = nu a0 u *: (aget F a0 *m aget F u).
  move=> hu; rewrite !FE ?lt ?(lin hu) // un // -[RHS]/(nu a0 u *: ((c a0 *: aget x.1 a0) *m (c u *: aget x.1 u))).
  rewrite -scalemxAl -scalemxAr !scalerA; congr (_ *: _).
  rewrite (gauge_nu SG) ?(lin hu) //; case: (sg_sign SG a0n) (sg_sign SG (lin hu)) (sg_sign SG (lt u hu)) => -> [] -> [] ->;
    by rewrite ?(mul1r, mulr1, mulNr, mulrN, opprK).
split=> //.
- by split; [exact: phased_order|rewrite phased // h2 (sg_one SG) scale1r].
- exists (regauge c D); first exact: (gauge_linear_rep SG).
  move=> u hu i j; rewrite FE ?lin // /regauge !mxE -mulrBr normrM cn ?lin // mul1r; exact: nD.
move=> u hu; have z1 : nu a0 u * nu a0 u = 1 by rewrite (ss_sign NS) ?(lin hu) // sgC_sq.
have aT : anti a0 = true := aa0.
by rewrite /corep_at aT /= un' // scalerA z1 scale1r.
Qed.
Lemma gen_indicators : (n ^ 2)%:R * eps < 2%:R^-1 ->
  size (co_indicators r) = size (co_irreps r) /\
  exists a0, [/\ (a0 < n)%N, anti a0 & forall m, (m < size (co_irreps r))%N ->
    let F := arr_nth (co_irreps r) m in let ind := nth 0 (co_indicators r) m in
    exists d (D : nat -> 'M[C]_d), [/\ linear_rep n mul e anti nu D, linear_irreducible n anti D,
      corep_kind n mul anti nu a0 D ind, adim F = (if ind == 1 then d else d + d)%N &
      forall u (i j : 'I_d) (i' j' : 'I_(adim F)), linear_op n anti u -> i = i' :> nat -> j = j' :> nat ->
        `|aget F u i' j' - D u i j| <= eps]].
Proof.
move=> small.
have [a0 [inv_a0 [[a0n aa0] [in0 inv0] [zE _ _ sz ok0] h]]] := corep_inv LE sT LG M spin NO A3 MS mok hs res.
split=> //; exists a0; split=> // m hm F ind; have [A' [x [[oA rA uA iA dA] Fx x2 iE mk]]] := h m hm.
have [o1 _ _ _] := made_structure LE LG M NO MS A3 oA rA uA a0n aa0 in0 inv0 mk.
have [h1 h2 h3 h4 h5] := exact_half LE LG M NO MS A3 oA rA uA a0n aa0 iA dA small iE mk.
exists (adim A'), (regauge c (fun i => aget A' (index i xsg))); rewrite /F Fx; split=> //.
- exact: (gauge_linear_rep SG).
- exact: (gauge_linear_irr SG).
- exact: (gauge_kind SG).
move=> u i j i' j' hu ei ej; rewrite phased ?lin // /regauge !mxE -mulrBr normrM cn ?lin // mul1r; exact: h5.
Qed.
Lemma double_blockZ m (a : C) (A : 'M[C]_m) : double_block A -> double_block (a *: A).
Proof.
move=> [d [Ed [X h]]]; exists d, Ed, (a *: X); subst m; rewrite castmx_id in h *.
by rewrite h scale_block_mx !scaler0.
Qed.
Lemma gen_law_iff_real : eps = 0 -> co_ok r ->
  forall m, (m < size (co_irreps r))%N -> let F := arr_nth (co_irreps r) m in
    corep n mul e anti nu (aget F) <->
    forall u, linear_op n anti u -> map_mx conjC (aget F u) = aget F u /\
      (nth 0 (co_indicators r) m = -1 -> double_block (aget F u)).
Proof.
move=> eps0 ok m hm F.
have [a0 [inv_a0 [[a0n aa0] [in0 inv0] [zE _ _ sz ok0] h]]] := corep_inv LE sT LG M spin NO A3 MS mok hs res.
have [A' [x [[oA rA uA iA dA] Fx x2 iE mk]]] := h m hm.
have [o1 _ _ _] := made_structure LE LG M NO MS A3 oA rA uA a0n aa0 in0 inv0 mk.
rewrite /F Fx; have T := total_near LE LG M NO MS A3 oA rA uA a0n aa0 iA _ iE.
have {}T := T (ltac:(by rewrite eps0 mulr0 invr_gt0 ltr0n)).
have law := made_law NO MS A3 oA rA uA aa0 in0 inv0 iA eps0 (or_cpowinv (no_oracles NO)) mk (x2 ok) T.
have lt := sg_lt SG; have en := sg_e SG; set F' := apply_phases E trans k x.1.
split=> [hF u hu|hF].
  have : corep n mul e anti mu (aget x.1).
    by apply: (corep_eq lt en _ (gauge_corep SG' hF)) => i hi; rewrite [RHS]phased_eq.
  move/law => /(_ u hu) [h1 h2]; rewrite phased ?lin // map_mxZ /= (cr SG) ?lin // h1; split=> // hi.
  by apply: double_blockZ; apply: h2.
apply: (corep_eq lt en (X := regauge c (aget x.1))) => [i hi|]; first by rewrite phased.
apply: (gauge_corep SG); apply/law => u hu; have [h1 h2] := hF u hu.
rewrite phased_eq ?lin // map_mxZ /= (cr SG) ?lin // h1; split=> // hi; apply: double_blockZ; exact: h2.
Qed.
(** Each pair of conjugate irreducible representations of the unitary half once. *)
Hypothesis RO : rounds (np_around E).
Hypothesis ok : co_ok r.
Lemma gen_pairs : (n ^ 2)%:R * eps < 2%:R^-1 -> let N := size (co_irreps r) in
  exists a0, [/\ (a0 < n)%N, anti a0 & exists (dim : nat -> nat) (D : forall m, nat -> 'M[C]_(dim m)),
    (forall m, (m < N)%N -> let F := arr_nth (co_irreps r) m in let ind := nth 0 (co_indicators r) m in
      [/\ linear_rep n mul e anti nu (D m), linear_irreducible n anti (D m), corep_kind n mul anti nu a0 (D m) ind,
          adim F = (if ind == 1 then dim m else dim m + dim m)%N &
          forall u (i j : 'I_(dim m)) (i' j' : 'I_(adim F)), linear_op n anti u -> i = i' :> nat -> j = j' :> nat ->
            `|aget F u i' j' - D m u i j| <= eps]) /\
    forall d (X : nat -> 'M[C]_d), linear_rep n mul e anti nu X -> linear_irreducible n anti X ->
      exists m, (m < N)%N /\ forall m', (m' < N)%N ->
        (linear_equivalent n anti X (D m') \/ conj_equivalent n mul anti nu a0 X (D m')) <-> m' = m].
Proof.
move=> small N.
have [a0 [inv_a0 [raw [chosen [[a0n aa0] [in0 inv0] [Er EP sC] [zE _ _ sI [rok _]] h]]]]] := corep_raw LE sT LG M spin hs res.
have := unitary_outcome NO A3 (linear_group LE LG M) (linear_multiplication LE M) max_num (mup_fs LE M MS) mok.
rewrite /= Er => -[[//]|[[rE] _]|[Ls [cl [_ [[[rE] _]|[//]]]]]]; first by have := rok ok; rewrite rE.
have [ol ci] := cl; rewrite size_linear_rots in ol ci.
exists a0; split=> //.
exists (fun m => adim (arr_nth Ls (nth (0 : int, 0%N) chosen m).2)),
  (fun m => regauge c (fun i => aget (arr_nth Ls (nth (0 : int, 0%N) chosen m).2) (index i xsg))).
rewrite rE /= in EP; have [partner part] := partners LE LG M MS a0n aa0 in0 inv0 ci.
rewrite /N -sC; split; last first.
  move=> d X rX iX; have iX' := gauge_linear_irr SG iX.
  have [m [hm un]] := cover LE LG M NO RO A3 MS small a0n aa0 in0 inv0 ol ci part EP (gauge_linear_rep SG' rX) iX'.
  exists m; split=> // m' hm'; rewrite -un // => {un}; set D := fun i => aget _ _.
  have KX i : (i < n)%N -> regauge c (regauge c X) i = X i by move=> hi; rewrite (regaugeK X SG).
  have KD i : (i < n)%N -> regauge c (regauge c D) i = D i by move=> hi; rewrite (regaugeK D SG).
  split=> -[H|H].
  - by left; exact: (linear_eqv_eq (fun _ _ => erefl) KD (gauge_linear_eqv c H)).
  - by right; exact: (conj_eqv_eq (fun _ _ => erefl) KD (gauge_conj_eqv SG' a0n H)).
  - by left; exact: (linear_eqv_eq KX (fun _ _ => erefl) (gauge_linear_eqv c H)).
  by right; exact: (conj_eqv_eq KX (fun _ _ => erefl) (gauge_conj_eqv SG a0n H)).
move=> m hm; rewrite sC in hm; have [x] := h m hm; move: (nth _ chosen m).2 => i /= [hi xE x2 iE mk].
rewrite rE /= size_map in hi; rewrite rE /= /arr_nth (nth_map (@Arr C 0 [::])) // -/(arr_nth Ls i) in iE mk.
have [oA rA uA iA] := And4 (ol i hi) (ci_rep ci hi) (ci_unitary ci hi) (ci_irreducible ci hi).
have dA := dim_sq ci hi.
have [o1 _ _ _] := made_structure LE LG M NO MS A3 oA rA uA a0n aa0 in0 inv0 mk.
have [h1 h2 h3 h4 h5] := exact_half LE LG M NO MS A3 oA rA uA a0n aa0 iA dA small iE mk.
rewrite xE; split=> //.
- exact: (gauge_linear_rep SG).
- exact: (gauge_linear_irr SG).
- exact: (gauge_kind SG).
move=> u i1 j1 i' j' hu ei ej; rewrite phased ?lin // /regauge !mxE -mulrBr normrM cn ?lin // mul1r; exact: h5.
Qed.
Lemma gen_dimensions : (n ^ 2)%:R * eps < 2%:R^-1 ->
  let weight (ind : int) : nat := if ind == 1 then 4%N else if ind == 0 then 2%N else 1%N in
  (\sum_(m < size (co_irreps r)) weight (nth 0%R (co_indicators r) m) * adim (arr_nth (co_irreps r) m) ^ 2 =
   4 * size xsg)%N.
Proof.
move=> small weight.
have [a0 [inv_a0 [raw [chosen [[a0n aa0] [in0 inv0] [Er EP sC] [zE _ _ sI [rok _]] h]]]]] := corep_raw LE sT LG M spin hs res.
have := unitary_outcome NO A3 (linear_group LE LG M) (linear_multiplication LE M) max_num (mup_fs LE M MS) mok.
rewrite /= Er => -[[//]|[[rE] _]|[Ls [cl [_ [[[rE] _]|[//]]]]]]; first by have := rok ok; rewrite rE.
have [ol ci] := cl; rewrite size_linear_rots in ol ci.
rewrite rE /= in EP.
rewrite -(pair_squares LE LG M NO RO A3 MS a0n aa0 in0 inv0 small ol ci EP) big_distrr /= -sC.
apply: eq_bigr => m _; have hx := mem_nth (0 : int, 0%N) (ltn_ord m).
have hm : (m < size (co_irreps r))%N by rewrite -sC.
have [x] := h m hm; have [_ cE] := pairs_sound EP hx.
move: (nth _ chosen m) cE => [ind i] /= cE [hi xE x2 iE mk].
rewrite rE /= size_map in hi; rewrite rE /= /arr_nth (nth_map (@Arr C 0 [::])) // -/(arr_nth Ls i) in iE mk.
rewrite (nth_map (@Arr C 0 [::])) ?size_map // (nth_map (@Arr C 0 [::])) // -/(arr_nth Ls i) in cE.
have [oA rA uA iA] := And4 (ol i hi) (ci_rep ci hi) (ci_unitary ci hi) (ci_irreducible ci hi).
have n0 : (size xsg)%:Z != 0.
  by have := e_linear LE M; rewrite -index_mem; case: (size _).
move: cE; rewrite iE => /(mulIf n0) iI.
have dA := dim_sq ci hi; rewrite xE.
have [_ _ kd dE _] := exact_half LE LG M NO MS A3 oA rA uA a0n aa0 iA dA small iE mk; rewrite /= dE {dE}.
rewrite /weight -iI; case: kd => [[-> _]|[-> _]|[-> _]] /=; rewrite ?mul1n ?muln1 //.
  by rewrite addnn -mul2n expnMn.
by rewrite addnn -mul2n expnMn !mulnA.
Qed.
(** The co-representations of the whole group. *)
Lemma gen_irreducible : eps = 0 -> let N := size (co_irreps r) in let F m := arr_nth (co_irreps r) m in
  (forall m, (m < N)%N -> corep n mul e anti nu (aget (F m)) -> corep_irreducible n anti (aget (F m))) /\
  forall d (X : nat -> 'M[C]_d), corep n mul e anti nu X -> corep_irreducible n anti X ->
    exists m, (m < N)%N /\ forall m', (m' < N)%N -> corep n mul e anti nu (aget (F m')) ->
      corep_equivalent n anti X (aget (F m')) <-> m' = m.
Proof.
move=> eps0 N F; have lt := sg_lt SG; have en := sg_e SG.
have small : (n ^ 2)%:R * eps < 2%:R^-1 by rewrite eps0 mulr0 invr_gt0 ltr0n.
have [a0 [inv_a0 [raw [chosen [[a0n aa0] [in0 inv0] [Er EP sC] [zE _ _ sI [rok _]] h]]]]] := corep_raw LE sT LG M spin hs res.
have := unitary_outcome NO A3 (linear_group LE LG M) (linear_multiplication LE M) max_num (mup_fs LE M MS) mok.
rewrite /= Er => -[[//]|[[rE] _]|[Ls [cl [_ [[[rE] _]|[//]]]]]]; first by have := rok ok; rewrite rE.
have [ol ci] := cl; rewrite size_linear_rots in ol ci.
rewrite rE /= in EP.
have each m : (m < N)%N -> corep n mul e anti nu (aget (F m)) ->
    let A := arr_nth Ls (nth (0%R : int, 0%N) chosen m).2 in
    corep_irreducible n anti (aget (F m)) /\
    forall d (X : nat -> 'M[C]_d) (B : arr C) (T : 'M[C]_(d, adim B)), corep n mul e anti nu X -> corep_irreducible n anti X ->
      iirreducible (size xsg) (aget B) -> T != 0 -> (forall u, u \in linear_subgroup LE LG M -> regauge c X (ival u) *m T = T *m lift (LE := LE) (LG := LG) (M := M) (aget B) u) ->
      (equivalent (linear_subgroup LE LG M) (lift (LE := LE) (LG := LG) (M := M) (aget B)) (lift (LE := LE) (LG := LG) (M := M) (aget A)) \/
       equivalent (linear_subgroup LE LG M) (lift (LE := LE) (LG := LG) (M := M) (aget B))
         (CorepTheory.conjrep (CorepBridge.w (LE := LE) (LG := LG) (M := M) (zi mu)) (ga LE LG M a0n) (lift (LE := LE) (LG := LG) (M := M) (aget A)))) <->
      corep_equivalent n anti X (aget (F m)).
  move=> hm; have [x] := h m hm; move: (nth _ chosen m).2 => i /= [hi xE x2 iE mk].
  rewrite rE /= size_map in hi; rewrite rE /= /arr_nth (nth_map (@Arr C 0 [::])) // -/(arr_nth Ls i) in iE mk.
  have [oA rA uA iA] := And4 (ol i hi) (ci_rep ci hi) (ci_unitary ci hi) (ci_irreducible ci hi).
  have [o1 _ _ _] := made_structure LE LG M NO MS A3 oA rA uA a0n aa0 in0 inv0 mk.
  rewrite /F xE => law0.
  have law : corep n mul e anti mu (aget x.1).
    by apply: (corep_eq lt en _ (gauge_corep SG' law0)) => j hj; rewrite [RHS]phased_eq.
  have T : _ := total_near LE LG M NO MS A3 oA rA uA a0n aa0 iA _ iE.
  have {}T := T (ltac:(by rewrite eps0 mulr0 invr_gt0 ltr0n)).
  have [irr mat] := made_irr NO A3 eps0 MS aa0 in0 inv0 oA rA uA iA mk (x2 ok) T law.
  have FE j : (j < n)%N -> regauge c (aget x.1) j = aget (apply_phases E trans k x.1) j by move=> hj; rewrite /regauge phased.
  split; first by apply: (corep_irr_eq FE); apply: (gauge_corep_irr SG); exact: (proj1 (cirrP LE LG M _) irr).
  move=> d X B S lX iX iB S0 hS.
  have -> : corep_equivalent n anti X (aget (apply_phases E trans k x.1)) <-> corep_equivalent n anti (regauge c X) (aget x.1).
    split=> H.
      by apply: (corep_eqv_eq _ _ (gauge_corep_eqv c H)) => j hj //; rewrite [RHS]phased_eq.
    by apply: (corep_eqv_eq _ FE (gauge_corep_eqv c H)) => j hj; rewrite (regaugeK X SG).
  rewrite -(cequivP LE LG M); apply: (mat _ _ _ _ _ _ _ _ S0 hS).
  - by apply: (law_group MS); exact: (gauge_corep SG' lX).
  - by apply: (proj2 (cirrP LE LG M _)); exact: (gauge_corep_irr SG iX).
  exact: lft_irr.
split=> [m hm /(each m hm) []//|d X lX iX].
have [i hi [T T0 hT]] := corep_constituent LE LG M MS ci iX.1 (gauge_corep SG' lX).
have [m [hm un]] := cover_group LE LG M NO RO A3 MS a0n aa0 in0 inv0 small ol ci EP hi.
rewrite sC in hm un; exists m; split=> // m' hm' law; rewrite -(un m' hm').
have [_ mat] := each m' hm' law; rewrite -(mat d X (arr_nth Ls i) T lX iX (ci_irreducible ci hi) T0 hT) //.
Qed.
End Result.

(** ** Zero translations at k = 0 *)
Lemma point_gauge (C : numClosedFieldType) (E : numpy C) rots flags mul e rtol atol (z : nat -> nat -> C) :
  numpy_ok E rtol atol -> size flags = size rots -> mag_multiplication (combine rots flags) mul e ->
  sign_gauge (size rots) mul e (fun i => np_exp E (Qopp (vdot vzero (List.nth i (List.map (fun _ => vzero) rots) vzero)))) z
    (fun i j => z i j * little_factor_system E rots (List.map (fun _ => vzero) rots) vzero i j).
Proof.
move=> NO LE M; have one i : np_exp E (Qopp (vdot vzero (List.nth i (List.map (fun _ => vzero) rots) vzero))) = 1.
  by rewrite nth_T0; apply/(ce_int (or_cexp (no_oracles NO))); exists Z0; rewrite /vdot /=.
split=> [i j hi hj||//|i hi|i j hi hj].
- exact: (lin_mulN LE M hi hj).
- exact: (lin_e LE M).
- by left; rewrite one.
by rewrite !one !mul1r (little1 rots NO).
Qed.
