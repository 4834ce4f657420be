(** Conjugacy classes and dimension lists of every group of rotations that spglib recognises. *)
From Coq Require Import List Arith ZArith Znumtheory QArith Bool String Lia Permutation.
From mathcomp Require Import all_ssreflect all_algebra.
From Verif Require Import Py Mat3 MatQ GroupModel GroupSpec GroupProofs SpaceGroupProofs GroupProofs2
  PointGroupData PointGroupModel PointGroupSpec ChainSpec ChainProofs PointGroupProofs
  RepSpec RepTheory RepModel CExpSpec ChainModel IndexRepSpec IndexGroup SmallModel SmallSpec SmallTheory PointDims ClassSpec TextbookSpec DimList ClassCompute.
Import Order.TTheory GRing.Theory Num.Theory.
Set Implicit Arguments.
Unset Strict Implicit.
Unset Printing Implicit Defensive.
Local Open Scope nat_scope.
Delimit Scope Z_scope with coqZ.

(** The element i commutes with no operation with which it forms a pair of twofold rotations. *)
Definition spin_regular (rots : list mat) (mul : nat -> nat -> nat) (i : nat) : Prop :=
  forall x, (x < size rots)%N -> mul x i = mul i x -> ~ twofold_pair (List.nth x rots mid) (List.nth i rots mid).

Section Neg.
Variables (P : qmat) (rots : list mat).
Hypotheses (LG : lists_group rots) (dP : ~ Qeq (qdet P) (inject_Z Z0))
  (iP : forall r, List.In r rots -> qintegral (qmul (qmul (qinv P) (qofz r)) P)).
Definition qneg (a : qmat) : qmat :=
  QMat (Qopp (q11 a)) (Qopp (q12 a)) (Qopp (q13 a)) (Qopp (q21 a)) (Qopp (q22 a)) (Qopp (q23 a)) (Qopp (q31 a)) (Qopp (q32 a)) (Qopp (q33 a)).
Lemma qconj_neg Q r : qmeq (qmul (qmul Q (qofz (mneg r))) P) (qneg (qmul (qmul Q (qofz r)) P)).
Proof. destruct Q, P, r; repeat split; cbn -[Qmult Qplus Qminus Qopp inject_Z Z.opp]; rewrite ?inject_Z_opp; ring. Qed.
Lemma qneg_eq a b : qmeq a b -> qmeq (qneg a) (qneg b).
Proof. by case=> h1 [h2 [h3 [h4 [h5 [h6 [h7 [h8 h9]]]]]]]; repeat split; cbn -[Qopp]; rewrite ?h1 ?h2 ?h3 ?h4 ?h5 ?h6 ?h7 ?h8 ?h9. Qed.
Lemma qofz_neg a : qmeq (qofz (mneg a)) (qneg (qofz a)).
Proof. destruct a; repeat split; cbn -[Qopp inject_Z Z.opp]; rewrite ?inject_Z_opp; reflexivity. Qed.
Lemma qneg_int a : qintegral a -> qintegral (qneg a).
Proof.
have o q : qint q -> qint (Qopp q) by case=> z h; exists (Z.opp z); rewrite h inject_Z_opp.
by case=> h1 [h2 [h3 [h4 [h5 [h6 [h7 [h8 h9]]]]]]]; repeat split; cbn -[Qopp]; exact: o.
Qed.
Lemma int_neg r : List.In r rots -> qintegral (qmul (qmul (qinv P) (qofz (mneg r))) P).
Proof. move=> hr; apply: qintegral_eq (qneg_int (iP hr)); apply: qmeq_sym; exact: qconj_neg. Qed.
Lemma conj_round_neg r : List.In r rots -> conj_round P (mneg r) = mneg (conj_round P r).
Proof.
move=> hr; apply: qofz_inj; rewrite /conj_round.
apply: (qmeq_trans _ _ _ (qofz_qround _ (int_neg hr))); apply: (qmeq_trans _ _ _ (qconj_neg _ _)).
apply: qmeq_sym; apply: (qmeq_trans _ _ _ (qofz_neg _)); apply: qneg_eq; exact: qofz_qround (iP hr).
Qed.
Lemma conj_twofold a b : List.In a rots -> List.In b rots ->
  twofold_pair (conj_round P a) (conj_round P b) <-> twofold_pair a b.
Proof.
move=> ha hb; have hi := lg_id _ LG.
pose l := List.app rots (List.map mneg rots).
have il r : List.In r l -> qintegral (qmul (qmul (qinv P) (qofz r)) P).
  by move=> /List.in_app_iff [/iP //|/List.in_map_iff [x [<- /int_neg]]].
have inl r : List.In r rots -> List.In r l by move=> h; apply/List.in_app_iff; left.
have inn r : List.In r rots -> List.In (mneg r) l by move=> h; apply/List.in_app_iff; right; exact: List.in_map.
have inj x y : List.In x l -> List.In y l -> conj_round P x = conj_round P y <-> x = y.
  by move=> hx hy; split=> [|-> //]; apply: (conj_round_inj P l dP il).
have c1 : conj_round P mid = mid by exact: conj_round_1.
have cm1 : conj_round P (mneg mid) = mneg mid by rewrite conj_round_neg // c1.
have sq x : List.In x rots -> mmul (conj_round P x) (conj_round P x) = mid <-> mmul x x = mid.
  move=> hx; have -> : mmul (conj_round P x) (conj_round P x) = conj_round P (mmul x x) by rewrite (conj_round_mul P rots).
  by rewrite -{1}c1; apply: inj; apply: inl => //; exact: (lg_mul _ LG).
have e1 x : List.In x rots -> conj_round P x = mid <-> x = mid by move=> hx; rewrite -{1}c1; apply: inj; exact: inl.
have e2 x : List.In x rots -> conj_round P x = mneg mid <-> x = mneg mid.
  by move=> hx; rewrite -{1}cm1; apply: inj; [exact: inl|exact: inn].
have e3 : conj_round P a = conj_round P b <-> a = b by apply: inj; exact: inl.
have e4 : conj_round P a = mneg (conj_round P b) <-> a = mneg b.
  by rewrite -(conj_round_neg hb); apply: inj; [exact: inl|exact: inn].
have [s1 s2] := conj (sq a ha) (sq b hb); have [a1 a2] := conj (e1 a ha) (e2 a ha); have [b1 b2] := conj (e1 b hb) (e2 b hb).
have [[s1' s1''] [s2' s2'']] := conj s1 s2; have [[a1' a1''] [a2' a2'']] := conj a1 a2; have [[b1' b1''] [b2' b2'']] := conj b1 b2.
have [[e3' e3''] [e4' e4'']] := conj e3 e4; clear -s1' s1'' s2' s2'' a1' a1'' a2' a2'' b1' b1'' b2' b2'' e3' e3'' e4' e4''.
split=> -[t1 t2 [t3 t4] [t5 t6] [t7 t8]].
  split; [exact: (s1' t1)|exact: (s2' t2)|split=> h; [exact: (t3 (a1'' h))|exact: (t4 (a2'' h))]|
    split=> h; [exact: (t5 (b1'' h))|exact: (t6 (b2'' h))]|split=> h; [exact: (t7 (e3'' h))|exact: (t8 (e4'' h))]].
split; [exact: (s1'' t1)|exact: (s2'' t2)|split=> h; [exact: (t3 (a1' h))|exact: (t4 (a2' h))]|
  split=> h; [exact: (t5 (b1' h))|exact: (t6 (b2' h))]|split=> h; [exact: (t7 (e3' h))|exact: (t8 (e4' h))]].
Qed.
End Neg.

Section Classes.
Variables (rots : list mat) (mul : nat -> nat -> nat) (e : nat).
Hypotheses (LG : lists_group rots) (M : multiplication rots mul e).
Variables (s : string) (P : qmat) (settings : list (list mat)) (std : list mat).
Hypotheses (hs : dict_get pg_dataset s = Ret settings) (hstd : List.In std settings)
  (dP : ~ Qeq (qdet P) (inject_Z Z0))
  (iP : forall r, List.In r rots -> qintegral (qmul (qmul (qinv P) (qofz r)) P))
  (pm : Permutation std (List.map (conj_round P) rots)).
Lemma setting_iso : exists ts f, [/\ get_cayley_table std = Ret ts, size std = size rots,
  [/\ forall i, i < size rots -> f i < size rots, forall i j, i < size rots -> j < size rots -> f (tget ts i j) = mul (f i) (f j) &
    forall j, j < size rots -> exists2 i, i < size rots & f i = j],
  forall i j, i < size rots -> j < size rots -> tget ts i j < size rots &
  forall i, i < size rots -> conj_round P (List.nth (f i) rots mid) = List.nth i std mid].
Proof.
have [i hi] := List.In_nth_error _ _ hstd.
have [GS [E0 _]] := setting_facts _ _ _ _ hs hi.
have [ts tsE] := cayley_rot_total std (lg_mul _ GS).
have sz : size std = size rots := std_size pm.
have n0 : 0 < size rots by rewrite -sz; case: (std) E0.
have En : List.nth 0 std mid = mid by apply: List.nth_error_nth.
have G : group_law (size rots) (tget ts) 0.
  by rewrite -sz; apply: (cayley_rot_group_law std ts 0%N GS tsE) => //; rewrite -[List.length _]/(size std) sz; exact/ssrnat.ltP.
have tlt a b : a < size rots -> b < size rots -> tget ts a b < size rots.
  by move=> /ssrnat.ltP ha /ssrnat.ltP hb; apply/ssrnat.ltP; apply: (gl_closed _ _ _ G).
have [f [f1 f2 f3 f4 f5]] := iso_exists LG M E0 dP iP pm tsE.
by exists ts, f.
Qed.
Lemma setting_check spin tbl : List.forallb (setting_classes spin tbl) all_settings = true ->
  exists i, setting_classes spin tbl (s, i, std).
Proof.
move=> chk; have [i hi] := List.In_nth_error _ _ hstd; exists i.
exact: (proj1 (List.forallb_forall _ _) chk _ (in_all_settings _ _ _ _ hs hi)).
Qed.
Theorem point_single : let ds := dims_of single_valued s in
  exists reps, [/\ class_representatives (size rots) mul (fun _ => True) reps, size reps = size ds,
    {subset ds <= [:: 1; 2; 3; 4]} & unique_tuple [:: 1; 2; 3] (size ds) (size rots) (tuple_of ds)].
Proof.
have [ts [f [tsE sz [f1 f3 f4] tlt f5]]] := setting_iso.
have [i] := setting_check single_classes.
rewrite /setting_classes /table_or_nil tsE sz => h; cbv zeta; move: h => /and4P [/class_repsb_sound cr /eqP sr /allP hd u].
exists (map f (find_reps (size rots) (tget ts) xpredT)); split=> //; last by rewrite size_map.
by apply: (iso_classes f1 f3 f4 tlt _ cr).
Qed.
Theorem point_double : let ds := dims_of double_valued s in
  exists reps, [/\ class_representatives (size rots) mul (spin_regular rots mul) reps, size reps = size ds,
    {subset ds <= [:: 1; 2; 3; 4]} &
    (unique_tuple [:: 1; 2; 3; 4] (size ds) (size rots) (tuple_of ds)) \/
    unique_tuple [:: 2; 4] (size ds) (size rots) (tuple_of ds) /\
      exists x i, [/\ x < size rots, i < size rots, mul x i = mul i x & twofold_pair (List.nth x rots mid) (List.nth i rots mid)]].
Proof.
have [ts [f [tsE sz [f1 f3 f4] tlt f5]]] := setting_iso.
have inr i : i < size rots -> List.In (List.nth i rots mid) rots by exact: nth_ltE.
have tw x i : x < size rots -> i < size rots ->
    twofoldb (List.nth x std mid) (List.nth i std mid) <-> twofold_pair (List.nth (f x) rots mid) (List.nth (f i) rots mid).
  move=> hx hi; rewrite -(f5 x hx) -(f5 i hi); split.
    by move/twofoldbP/(conj_twofold LG dP iP (inr _ (f1 _ hx)) (inr _ (f1 _ hi))).
  by move=> h; apply/twofoldbP/(conj_twofold LG dP iP (inr _ (f1 _ hx)) (inr _ (f1 _ hi))).
have finj := f_inj f1 f4.
have com x i : x < size rots -> i < size rots -> (tget ts x i == tget ts i x :> nat) = (mul (f x) (f i) == mul (f i) (f x) :> nat).
  move=> hx hi; rewrite -!f3 //; apply/eqP/eqP => [-> //|]; apply: finj; exact: tlt.
have rg i : i < size rots -> spin_regularb std ts i <-> spin_regular rots mul (f i).
  move=> hi; rewrite /spin_regularb sz; split=> [/allP h y /f4 [x hx <-] /eqP|h].
    rewrite -com // => c /(proj2 (tw x i hx hi)) t; have := h x; rewrite mem_iota add0n /= hx c t => /(_ isT) //.
  apply/allP => x; rewrite mem_iota add0n /= => hx; apply/implyP; rewrite com // => /eqP c; apply/negP => /(proj1 (tw x i hx hi)).
  by apply: h => //; exact: f1.
have [i] := setting_check double_classes.
rewrite /setting_classes /table_or_nil tsE sz => h; cbv zeta; move: h => /and4P [/class_repsb_sound cr /eqP sr /allP hd u].
exists (map f (find_reps (size rots) (tget ts) (spin_regularb std ts))); split=> //.
- by apply: (iso_classes f1 f3 f4 tlt _ cr).
- by rewrite size_map.
move: u; case: ifPn => [_|/allPn [j hj nj]] u; [by left|right; split=> //].
have hj' : j < size rots by rewrite mem_iota add0n in hj.
move: nj; rewrite /spin_regularb sz => /allPn [x]; rewrite mem_iota add0n /= => hx.
rewrite negb_imply negbK com // => /andP [/eqP c /(proj1 (tw x j hx hj')) t].
by exists (f x), (f j); split=> //; exact: f1.
Qed.
End Classes.
