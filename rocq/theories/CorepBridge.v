(** Proofs about CorepModel: the linear operations of a magnetic group, and the shape of the
    returned co-representations. *)
From Coq Require Import QArith ZArith List String.
From mathcomp Require Import all_ssreflect all_algebra all_fingroup.
From Verif Require Import Py Mat3 MatQ GroupModel GroupSpec GroupProofs RepSpec RepModel RepTheory RepProofs Mx2 IndexRepSpec IndexGroup
  CExpSpec ChainModel ChainTheory SmallModel SmallSpec SmallTheory SpinorModel SpinorSpec SpinorTheory SpinorProofs SpinorConv CorepModel CorepSpec CorepProofs
  CorepTheory.
Import Order.TTheory GRing.Theory Num.Theory.
Set Implicit Arguments.
Unset Strict Implicit.
Unset Printing Implicit Defensive.
Local Open Scope ring_scope.

Lemma nthE A (x0 : A) l i : List.nth i l x0 = seq.nth x0 l i.
Proof. by elim: l i => [|x l IH] [|i] /=. Qed.
Lemma In_mem (T : eqType) (x : T) l : In x l <-> x \in l.
Proof.
elim: l => [|y l IH] //=; rewrite inE; split=> [[<-|/IH ->]|/orP [/eqP ->|/IH]]; rewrite ?eqxx ?orbT //; auto.
Qed.

(** decompose_by_maximal_space_subgroup selects the operations without time reversal and the
    first one with time reversal. *)
Lemma enumerate_filter A (p : A -> bool) (x0 : A) l m :
  List.map fst (List.filter (fun x => p x.2) (combine (List.seq m (List.length l)) l)) =
  [seq i <- iota m (size l) | p (seq.nth x0 l (i - m))].
Proof.
elim: l m => [|x l IH] m //=; rewrite subnn /=.
have -> : [seq i <- iota m.+1 (size l) | p (seq.nth x0 (x :: l) (i - m))] = [seq i <- iota m.+1 (size l) | p (seq.nth x0 l (i - m.+1))].
  apply: eq_in_filter => i; rewrite mem_iota => /andP [h _]; by rewrite -{1}(subnK h) addnS -addSn addnK.
by case: (p x) => /=; rewrite IH.
Qed.
Lemma mop_trE (rots : list mat) trans flags i : size trans = size rots -> size flags = size rots ->
  mop_tr (seq.nth (mid, vzero, false) (combine (combine rots trans) flags) i) = seq.nth false flags i.
Proof.
move=> h1 h2; rewrite -nthE combine_nth; last by rewrite combine_length -[List.length trans]/(size trans) h1 PeanoNat.Nat.min_id.
by rewrite -nthE.
Qed.
Lemma decompose_shape rots trans flags : size trans = size rots -> size flags = size rots ->
  ~~ all id flags -> has id flags ->
  exists tri a0, [/\ decompose_by_maximal_space_subgroup (combine (combine rots trans) flags) =
      Ret (Some ([seq i <- iota 0 (size rots) | ~~ seq.nth false flags i], tri, a0)),
      (a0 < size rots)%N & seq.nth false flags a0].
Proof.
move=> h1 h2 nall hs; rewrite /decompose_by_maximal_space_subgroup.
set ops := combine _ _; have so : size ops = size rots.
  rewrite -[size _]/(List.length _) !combine_length -[List.length trans]/(size trans) -[List.length flags]/(size flags) h1 h2.
  by rewrite -[List.length rots]/(size rots) !PeanoNat.Nat.min_id.
have tr i : mop_tr (seq.nth (mid, vzero, false) ops i) = seq.nth false flags i by exact: mop_trE.
have inops i : (i < size rots)%N -> In (seq.nth (mid, vzero, false) ops i) ops.
  by move=> hi; rewrite -nthE; apply: nth_In; apply/ssrnat.ltP; rewrite -[List.length _]/(size _) so.
have -> : forallb mop_tr ops = false.
  apply/negbTE; apply: contra nall => h; apply/(all_nthP false) => i hi.
  by move/forallb_forall: h => h; rewrite -tr; apply: h; apply: inops; rewrite -h2.
have := enumerate_filter (fun o => ~~ mop_tr o) (mid, vzero, false) ops 0; rewrite /enumerate => ->.
have -> : [seq i <- iota 0 (size ops) | ~~ mop_tr (seq.nth (mid, vzero, false) ops (i - 0))] = [seq i <- iota 0 (size rots) | ~~ seq.nth false flags i].
  by rewrite so; apply: eq_filter => i; rewrite subn0 tr.
case E: (find_index mop_tr ops) => [a0|]; last first.
  exfalso; move/(has_nthP false): hs => [i hi fi].
  have h : forall x, In x ops -> mop_tr x = false by apply/find_index_None.
  by have := h _ (inops i _); rewrite tr fi -h2 => /(_ hi).
have [[x [hx px]] _] := proj1 (find_index_Some _ _ _) E.
eexists; exists a0; split; first reflexivity.
  by rewrite -so; apply/ssrnat.ltP/nth_error_Some; rewrite hx.
by rewrite -tr -nthE (nth_error_nth _ _ _ hx).
Qed.

Section Linear.
Variables (rots : list mat) (flags : list bool) (mul : nat -> nat -> nat) (e : nat).
Let ops := combine rots flags.
Hypotheses (LE : size flags = size rots) (LG : lists_magnetic_group ops) (M : mag_multiplication ops mul e).
Local Notation n := (size rots).
Definition anti (i : nat) : bool := seq.nth false flags i.
Definition linear_ops : list nat := [seq i <- iota 0 n | ~~ anti i].
Local Notation xsg := linear_ops.
Definition linear_rots : list mat := List.map (fun i => List.nth i rots mid) xsg.
Let so : size ops = n := size_ops LE.
Lemma op_at i : List.nth i ops (mid, false) = (List.nth i rots mid, anti i).
Proof. by rewrite (nth_ops LE) /anti (nthE false). Qed.
Lemma lin_mulN i j : (i < n)%N -> (j < n)%N -> (mul i j < n)%N.
Proof. by rewrite -so; apply: (mm_lt M). Qed.
Lemma lin_mulE i j : (i < n)%N -> (j < n)%N ->
  List.nth (mul i j) rots mid = mmul (List.nth i rots mid) (List.nth j rots mid) /\ anti (mul i j) = anti i (+) anti j.
Proof.
move=> hi hj; have := mm_mul M (i := i) (j := j); rewrite -/ops so !op_at /mag_mul /= => /(_ hi hj) [h1 h2]; split=> //.
by rewrite h2; case: (anti i); case: (anti j).
Qed.
Lemma lin_e : (e < n)%N. Proof. by rewrite -so; apply: (mm_e M). Qed.
Lemma lin_id : List.nth e rots mid = mid /\ anti e = false.
Proof. by have := mm_id M; rewrite -/ops op_at => -[]. Qed.
Lemma lin_inj i j : (i < n)%N -> (j < n)%N -> List.nth i rots mid = List.nth j rots mid -> anti i = anti j -> i = j.
Proof. by rewrite -so => hi hj h1 h2; apply: (nth_ops_inj LG hi hj); rewrite !op_at h1 h2. Qed.
Lemma lin_group_law : group_law n mul e.
Proof.
have [t ht] := cayley_total ops (mg_mul _ LG).
have e1 : nth_error ops e = Some op_id.
  rewrite (nth_error_nth' ops (mid, false)) ?op_at; last by apply/ssrnat.ltP; rewrite -[List.length _]/(size _) so lin_e.
  by have [-> ->] := lin_id.
have := cayley_group_law _ _ _ LG ht e1; rewrite -[List.length _]/(size _) so => G.
have E i j : (i < n)%N -> (j < n)%N -> tget t i j = mul i j by rewrite -so; apply: (mag_table LG M ht).
exact: (group_law_ext E G).
Qed.
Lemma mem_linear i : (i \in xsg) = (i < n)%N && ~~ anti i.
Proof. by rewrite /linear_ops mem_filter mem_iota add0n andbC. Qed.
Lemma uniq_linear : uniq xsg. Proof. by rewrite /linear_ops filter_uniq // iota_uniq. Qed.
Lemma size_linear_rots : size linear_rots = size xsg.
Proof. by rewrite /linear_rots -[LHS]/(List.length _) map_length. Qed.
Lemma nth_linear_rots p : (p < size xsg)%N -> List.nth p linear_rots mid = List.nth (seq.nth 0%N xsg p) rots mid.
Proof. by rewrite /linear_rots => hp; rewrite (nthE mid (List.map _ _)) -[List.map _ _]/(map _ _) (nth_map 0%N). Qed.
Lemma nth_linear p : (p < size xsg)%N -> (seq.nth 0%N xsg p < n)%N /\ anti (seq.nth 0%N xsg p) = false.
Proof. by move=> /(mem_nth 0%N); rewrite mem_linear => /andP [h1 /negbTE h2]. Qed.
Definition linear_mul (p q : nat) : nat := index (mul (seq.nth 0%N xsg p) (seq.nth 0%N xsg q)) xsg.
Definition linear_e : nat := index e xsg.
Lemma e_linear : e \in xsg. Proof. by rewrite mem_linear lin_e; have [_ ->] := lin_id. Qed.
Lemma linear_mul_in p q : (p < size xsg)%N -> (q < size xsg)%N -> mul (seq.nth 0%N xsg p) (seq.nth 0%N xsg q) \in xsg.
Proof.
move=> /nth_linear [hp ap] /nth_linear [hq aq]; rewrite mem_linear lin_mulN //.
by have [_ ->] := lin_mulE hp hq; rewrite ap aq.
Qed.
Lemma nth_linear_mul p q : (p < size xsg)%N -> (q < size xsg)%N ->
  seq.nth 0%N xsg (linear_mul p q) = mul (seq.nth 0%N xsg p) (seq.nth 0%N xsg q).
Proof. by move=> hp hq; rewrite /linear_mul nth_index // linear_mul_in. Qed.
Lemma linear_multiplication : multiplication linear_rots linear_mul linear_e.
Proof.
split; rewrite ?size_linear_rots.
- by move=> p q hp hq; rewrite /linear_mul index_mem linear_mul_in.
- move=> p q hp hq; rewrite !nth_linear_rots // ?nth_linear_mul //; last by rewrite /linear_mul index_mem linear_mul_in.
  by have [h1 _] := nth_linear hp; have [h2 _] := nth_linear hq; have [-> _] := lin_mulE h1 h2.
- by rewrite /linear_e index_mem e_linear.
by rewrite nth_linear_rots /linear_e ?index_mem ?e_linear // nth_index ?e_linear //; have [-> _] := lin_id.
Qed.
Lemma In_linear_rots r : In r linear_rots <-> exists2 i, i \in xsg & List.nth i rots mid = r.
Proof.
split=> [/in_map_iff [i [h /In_mem hi]]|[i hi <-]]; first by exists i.
by apply/in_map_iff; exists i; split=> //; apply/In_mem.
Qed.
Lemma linear_group : lists_group linear_rots.
Proof.
have MM := linear_multiplication.
split.
- apply/(NoDup_nth linear_rots mid) => p q /ssrnat.ltP hp /ssrnat.ltP hq.
  rewrite -[List.length _]/(size _) size_linear_rots in hp hq; rewrite !nth_linear_rots // => h.
  have [h1 a1] := nth_linear hp; have [h2 a2] := nth_linear hq.
  have : seq.nth 0%N xsg p = seq.nth 0%N xsg q by apply: lin_inj => //; rewrite a1 a2.
  by move=> /eqP; rewrite nth_uniq ?uniq_linear // => /eqP.
- by apply/In_linear_rots; exists e; [exact: e_linear|have [-> _] := lin_id].
- move=> a b /In_linear_rots [i hi <-] /In_linear_rots [j hj <-]; apply/In_linear_rots; exists (mul i j).
    by move: hi hj; rewrite !mem_linear => /andP [h1 /negbTE a1] /andP [h2 /negbTE a2]; rewrite lin_mulN //; have [_ ->] := lin_mulE h1 h2; rewrite a1 a2.
  by move: hi hj; rewrite !mem_linear => /andP [h1 _] /andP [h2 _]; have [-> _] := lin_mulE h1 h2.
move=> a /In_linear_rots [i hi <-]; move: (hi); rewrite mem_linear => /andP [h1 a1].
have [j [/ssrnat.ltP hj [e1 e2]]] := gl_inv _ _ _ lin_group_law i (ssrnat.ltP h1).
have [E1 A1] := lin_mulE h1 hj; have [E2 A2] := lin_mulE hj h1; have [ie ae] := lin_id.
exists (List.nth j rots mid); rewrite -E1 -E2 e1 e2 ie; split=> //; apply/In_linear_rots; exists j => //.
by rewrite mem_linear hj /=; move: A1; rewrite e1 ae (negbTE a1) /= => <-.
Qed.
End Linear.

(** ** Filling the arrays *)
Section Assign.
Variables (T : eqType) (x0 : T).
Lemma size_assign_at (a : seq T) idx vals : (forall i, i \in idx -> (i < size a)%N) -> size (assign_at x0 a idx vals) = size a.
Proof.
rewrite /assign_at; elim: idx vals a => [|i idx IH] [|v vals] a //= h.
have ha : size (set_nth x0 a i v) = size a by rewrite size_set_nth; apply/maxn_idPr/h/mem_head.
by rewrite IH ha // => j hj; apply: h; rewrite inE hj orbT.
Qed.
Lemma nth_assign_notin (a : seq T) idx vals i : i \notin idx -> nth x0 (assign_at x0 a idx vals) i = nth x0 a i.
Proof.
rewrite /assign_at; elim: idx vals a => [|j idx IH] [|v vals] a //=; rewrite inE negb_or => /andP [ij hi].
by rewrite IH // nth_set_nth /= (negbTE ij).
Qed.
Lemma nth_assign_in (a : seq T) idx vals i : uniq idx -> size vals = size idx -> i \in idx ->
  nth x0 (assign_at x0 a idx vals) i = nth x0 vals (index i idx).
Proof.
elim: idx vals a => [|j idx IH] [|v vals] a //= /andP [nj ui] [sz]; rewrite inE.
rewrite -[assign_at _ _ _ _]/(assign_at x0 (set_nth x0 a j v) idx vals); case: (eqVneq i j) => [-> _ /=|ne /= hi].
  by rewrite nth_assign_notin // nth_set_nth /= eqxx.
exact: IH.
Qed.
End Assign.
Section Fill.
Variables (C : numClosedFieldType) (n : nat) (mu : nat -> nat -> C) (xsg a0u : list nat) (a0 d : nat) (K : 'M[C]_d) (lin : seq 'M[C]_d).
Hypotheses (ux : uniq xsg) (ua : uniq a0u) (sa : size a0u = size xsg) (sl : size lin = size xsg).
Hypotheses (hx : forall i, i \in xsg -> (i < n)%N) (ha : forall i, i \in a0u -> (i < n)%N).
Hypothesis disj : forall i, i \in a0u -> i \notin xsg.
Local Notation F := (fill_corep n mu xsg a0u a0 K lin).
Lemma fill_order : aorder F = n.
Proof.
by rewrite /aorder /fill_corep /= !size_assign_at ?size_nseq //.
Qed.
Lemma fill_linear i : i \in xsg -> aget F i = nth 0 lin (index i xsg).
Proof.
move=> hi; rewrite /aget /fill_corep /= nth_assign_notin; last by apply/negP => /disj; rewrite hi.
by rewrite nth_assign_in.
Qed.
Lemma fill_anti p : (p < size xsg)%N ->
  aget F (nth 0%N a0u p) = ((mu a0 (nth 0%N xsg p))^* *: K) *m nth 0 lin p.
Proof.
move=> hp; rewrite /aget /fill_corep /= nth_assign_in ?mem_nth ?sa ?size_map ?size_zip ?sl ?minnn ?sa // index_uniq ?sa //.
by rewrite (nth_map (0%N, 0)) ?size_zip ?sl ?minnn // nth_zip ?sl.
Qed.
End Fill.

Section Group.
Variables (rots : list mat) (flags : list bool) (mul : nat -> nat -> nat) (e : nat).
Hypotheses (LE : size flags = size rots) (LG : lists_magnetic_group (combine rots flags)) (M : mag_multiplication (combine rots flags) mul e).
Local Notation n := (size rots).
Local Notation anti := (anti flags).
Local Notation xsg := (linear_ops rots flags).
Let Gl := lin_group_law LE LG M.
Local Notation gT := (igT Gl).
Local Notation v := (@ival _ _ _ Gl).
Definition linear_set : {set gT} := [set x | ~~ anti (v x)].
Lemma antiM x y : anti (v (x * y)%g) = anti (v x) (+) anti (v y).
Proof. by rewrite ivalM; have [_ ->] := lin_mulE LE M (ival_lt x) (ival_lt y). Qed.
Lemma linear_group_set : group_set linear_set.
Proof.
apply/group_setP; split; first by rewrite inE ival1; have [_ ->] := lin_id LE M.
by move=> x y; rewrite !inE antiM => /negbTE -> /negbTE ->.
Qed.
Definition linear_subgroup : {group gT} := Group linear_group_set.
Local Notation H := linear_subgroup.
Lemma in_linear x : (x \in H) = ~~ anti (v x). Proof. by rewrite inE. Qed.
Lemma linear_half x y : ((x * y)%g \in H) = ((x \in H) == (y \in H))%B.
Proof. by rewrite !in_linear antiM; do 2!case: (anti _). Qed.
Lemma in_xsg x : (v x \in xsg) = (x \in H).
Proof. by rewrite (mem_linear) ival_lt in_linear. Qed.
Lemma xsg_elt i : i \in xsg -> exists2 x, x \in H & v x = i.
Proof.
move=> hi; have [x ex] : exists x, v x = i by apply: ival_surj; move: hi; rewrite mem_linear => /andP [].
by exists x => //; rewrite -in_xsg ex.
Qed.
Lemma card_linear : #|H| = size xsg.
Proof.
have -> : size xsg = size [seq v x | x <- enum H].
  apply/perm_size; apply: uniq_perm; first exact: uniq_linear.
    by rewrite map_inj_uniq ?enum_uniq //; exact: ival_inj.
  move=> i; apply/idP/mapP => [/xsg_elt [x hx <-]|[x]]; first by exists x; rewrite ?mem_enum.
  by rewrite mem_enum => hx ->; rewrite in_xsg.
by rewrite size_map -cardE.
Qed.
Lemma big_linear (R : zmodType) (F : nat -> R) : \sum_(i <- xsg) F i = \sum_(x in H) F (v x).
Proof.
have <- : \sum_(i <- [seq v x | x <- enum H]) F i = \sum_(x in H) F (v x) by rewrite big_map big_enum.
apply: perm_big; apply: uniq_perm; first exact: uniq_linear.
  by rewrite map_inj_uniq ?enum_uniq //; exact: ival_inj.
move=> i; apply/idP/mapP => [/xsg_elt [x hx <-]|[x]]; first by exists x; rewrite ?mem_enum.
by rewrite mem_enum => hx ->; rewrite in_xsg.
Qed.

Variables (C : numClosedFieldType) (wi : nat -> nat -> bool).
Definition w (x y : gT) : bool := wi (v x) (v y).
Definition mus (x y : gT) : C := (-1) ^+ w x y.
Section Restrict.
Variables (d : nat) (D : nat -> 'M[C]_d).
Definition lift (x : gT) : 'M[C]_d := D (index (v x) xsg).
Local Notation mup := (fun p q => (-1) ^+ wi (seq.nth 0%N xsg p) (seq.nth 0%N xsg q) : C).
Lemma lift_projrep : iprojrep (size xsg) (linear_mul rots flags mul) (linear_e rots flags e) mup D -> projrep mus H lift.
Proof.
move=> [D1 DM]; split=> [|x y hx hy]; first by rewrite /lift ival1 D1.
rewrite /lift DM ?index_mem ?in_xsg // !nth_index ?in_xsg //; congr (_ *: D _).
by rewrite /linear_mul !nth_index ?in_xsg // ivalM.
Qed.
Lemma lift_unirep : iunitary (size xsg) D -> unirep H lift.
Proof. by move=> u x hx; apply: u; rewrite index_mem in_xsg. Qed.
Lemma lift_irreducible : iirreducible (size xsg) D -> irreducible H lift.
Proof.
move=> [d0 h]; split=> // m W hW; apply: h => p hp; have [x hx ex] := xsg_elt (mem_nth 0%N hp).
have [Y hY] := hW x hx; exists Y; rewrite -hY /lift ex index_uniq ?uniq_linear //.
Qed.
End Restrict.
End Group.
