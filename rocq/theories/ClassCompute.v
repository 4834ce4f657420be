(** Conjugacy classes computed in a multiplication table, and for the tabulated point groups. *)
From Coq Require Import List Arith ZArith Znumtheory Bool String Lia Permutation.
From mathcomp Require Import all_ssreflect all_algebra.
From Verif Require Import Py Mat3 MatQ GroupModel GroupSpec GroupProofs SpaceGroupProofs GroupProofs2
  PointGroupData PointGroupModel PointGroupSpec ChainSpec ChainProofs PointGroupProofs
  RepSpec RepTheory RepModel CExpSpec ChainModel IndexRepSpec IndexGroup SmallModel SmallSpec SmallTheory PointDims ClassSpec TextbookSpec DimList.
Import Order.TTheory GRing.Theory Num.Theory.
Set Implicit Arguments.
Unset Strict Implicit.
Unset Printing Implicit Defensive.
Local Open Scope nat_scope.

(** ** Computing class representatives in a multiplication table *)
Section Compute.
Variables (n : nat) (mul : nat -> nat -> nat).
Definition conjb (i j : nat) : bool := has (fun x => mul x i == mul j x) (iota 0 n).
Lemma conjbP i j : reflect (conjugates n mul i j) (conjb i j).
Proof.
apply: (iffP hasP) => [[x]|[x hx e]]; first by rewrite mem_iota add0n /= => hx /eqP e; exists x.
by exists x; rewrite ?mem_iota ?e.
Qed.
Fixpoint apartb (l : seq nat) : bool :=
  if l is x :: l' then ~~ has (fun y => conjb x y || conjb y x) l' && apartb l' else true.
Definition class_repsb (P : pred nat) (reps : seq nat) : bool :=
  [&& all (fun i => (i < n) && P i) reps, apartb reps & all (fun i => P i ==> has (conjb i) reps) (iota 0 n)].
Lemma apartb_sound l : apartb l -> forall a b, a < size l -> b < size l -> conjugates n mul (nth 0 l a) (nth 0 l b) -> a = b.
Proof.
elim: l => //= x l IH /andP [/hasPn h1 h2] [|a] [|b] //= ha hb.
- by move/conjbP => c; have := h1 _ (mem_nth 0 hb); rewrite c.
- by move/conjbP => c; have := h1 _ (mem_nth 0 ha); rewrite c orbT.
- by move=> c; congr S; exact: IH.
Qed.
Lemma class_repsb_sound P reps : class_repsb P reps -> class_representatives n mul P reps.
Proof.
case/and3P => /allP h1 h2 /allP h3; split=> [i /h1 /andP [] //|a b ha hb|i hi Pi]; first exact: apartb_sound.
have : i \in iota 0 n by rewrite mem_iota.
by move/h3; rewrite Pi /= => /hasP [j jr /conjbP c]; exists j.
Qed.
Definition find_reps (P : pred nat) : seq nat :=
  foldl (fun acc i => if P i && ~~ has (conjb i) acc then rcons acc i else acc) [::] (iota 0 n).
End Compute.

Section Transport.
Variables (n : nat) (mul mul' : nat -> nat -> nat) (f : nat -> nat).
Hypotheses (f1 : forall i, i < n -> f i < n) (f3 : forall i j, i < n -> j < n -> f (mul i j) = mul' (f i) (f j))
  (f4 : forall j, j < n -> exists2 i, i < n & f i = j).
Hypothesis cl : forall i j, i < n -> j < n -> mul i j < n.
Lemma f_inj i j : i < n -> j < n -> f i = f j -> i = j.
Proof.
have sz : size (undup (map f (iota 0 n))) = n.
  rewrite -[RHS](size_iota 0 n); apply/perm_size/uniq_perm; rewrite ?undup_uniq ?iota_uniq // => x; rewrite mem_undup mem_iota add0n /=.
  apply/mapP/idP => [[k]|/f4 [k hk <-]]; first by rewrite mem_iota add0n /= => /f1 hk ->.
  by exists k; rewrite ?mem_iota.
have u : uniq (map f (iota 0 n)) by rewrite -[uniq _]negbK -ltn_size_undup size_map size_iota sz ltnn.
move=> hi hj e; have := nth_uniq 0 (s := map f (iota 0 n)) (i := i) (j := j); rewrite size_map size_iota => /(_ hi hj u).
by rewrite !(nth_map 0) ?size_iota // !nth_iota // !add0n e eqxx => /esym/eqP.
Qed.
Lemma iso_conj i j : i < n -> j < n -> conjugates n mul i j <-> conjugates n mul' (f i) (f j).
Proof.
move=> hi hj; split=> [[x hx e]|[y /f4 [x hx <-]]]; first by exists (f x); rewrite ?f1 // -!f3 // e.
by rewrite -!f3 // => e; exists x => //; apply: f_inj; rewrite ?cl.
Qed.
Lemma iso_classes (P P' : nat -> Prop) reps : (forall i, i < n -> P i <-> P' (f i)) ->
  class_representatives n mul P reps -> class_representatives n mul' P' (map f reps).
Proof.
move=> PP [h1 h2 h3]; split.
- by move=> j /mapP [i /h1 [hi Pi] ->]; split; [exact: f1|exact/PP].
- move=> a b; rewrite size_map => ha hb; rewrite !(nth_map 0) //.
  have [hA _] := h1 _ (mem_nth 0 ha); have [hB _] := h1 _ (mem_nth 0 hb).
  by move/(proj2 (iso_conj hA hB)); exact: h2.
move=> j /f4 [i hi <-] /(proj2 (PP i hi)) Pi; have [k kr c] := h3 i hi Pi.
by exists (f k); [exact: map_f|apply: (proj1 (iso_conj hi _) c); case: (h1 k kr)].
Qed.
End Transport.

(** ** Regular elements of the spinor factor system *)
Definition twofoldb (a b : mat) : bool :=
  [&& meqb (mmul a a) mid, meqb (mmul b b) mid, ~~ meqb a mid, ~~ meqb a (mneg mid), ~~ meqb b mid, ~~ meqb b (mneg mid), ~~ meqb a b & ~~ meqb a (mneg b)].
Lemma meqbP a b : reflect (a = b) (meqb a b).
Proof. by apply: (iffP idP) => [/meqb_eq //|->]; exact: meqb_refl. Qed.
Lemma twofoldbP a b : reflect (twofold_pair a b) (twofoldb a b).
Proof.
apply: (iffP idP) => [|[t1 t2 [t3 t4] [t5 t6] [t7 t8]]]; last by apply/and5P; split; [..|apply/and4P; split]; apply/meqbP.
by case/and5P => /meqbP t1 /meqbP t2 /meqbP t3 /meqbP t4 /and4P [/meqbP t5 /meqbP t6 /meqbP t7 /meqbP t8].
Qed.
Definition spin_regularb (l : list mat) (t : table) (i : nat) : bool :=
  all (fun x => (tget t x i == tget t i x) ==> ~~ twofoldb (List.nth x l mid) (List.nth i l mid)) (iota 0 (size l)).

Definition dims_of (tbl : list (string * list nat)) (s : string) : list nat := if dict_get tbl s is Ret ds then ds else [::].
Definition setting_classes (spin : bool) (tbl : list (string * list nat)) (x : string * nat * list mat) : bool :=
  let: (s, i, l) := x in
  let t := table_or_nil l in
  let P := if spin then spin_regularb l t else xpredT in
  let reps := find_reps (size l) (tget t) P in
  let ds := dims_of tbl s in
  let al := if spin then if all P (iota 0 (size l)) then [:: 1; 2; 3; 4] else [:: 2; 4] else [:: 1; 2; 3] in
  [&& class_repsb (size l) (tget t) P reps, size reps == size ds, all (mem [:: 1; 2; 3; 4]) ds &
      unique_tuple al (size ds) (size l) (tuple_of ds)].
Lemma single_classes : List.forallb (setting_classes false single_valued) all_settings = true.
Proof. vm_cast_no_check (eq_refl true). Qed.
Lemma double_classes : List.forallb (setting_classes true double_valued) all_settings = true.
Proof. vm_cast_no_check (eq_refl true). Qed.
