(** Dimensions of the irreducible representations of the tabulated point groups. *)
From Coq Require Import List Arith ZArith Znumtheory QArith Bool String Lia Permutation.
From mathcomp Require Import all_ssreflect all_algebra.
From Verif Require Import Py Mat3 MatQ GroupModel GroupSpec GroupProofs SpaceGroupProofs GroupProofs2
  PointGroupData PointGroupModel PointGroupSpec ChainSpec ChainProofs PointGroupProofs
  RepSpec RepTheory RepModel CExpSpec ChainModel IndexRepSpec IndexGroup SmallModel SmallSpec SmallTheory DimTheory.
Import Order.TTheory GRing.Theory Num.Theory.
Set Implicit Arguments.
Unset Strict Implicit.
Unset Printing Implicit Defensive.

(** The three computations: all factors 1; only mu(e,x) = mu(x,e) known; also known for the
    inversion. *)
Definition sym_linear (l : list mat) (z x : nat) : bool := true.
Definition sym_any (l : list mat) (z x : nat) : bool := Nat.eqb z 0 || Nat.eqb x 0.
Definition sym_inversion (l : list mat) (z x : nat) : bool :=
  Nat.eqb z 0 || Nat.eqb x 0 || meqb (List.nth z l mid) (mneg mid) || meqb (List.nth x l mid) (mneg mid).
Definition setting_dims (sym : list mat -> nat -> nat -> bool) (s : string) (i : nat) (l : list mat) : list nat :=
  match get_generators s i with
  | Some (Ret gens) => dims_run (List.length l) (tget (table_or_nil l)) 0 (sym l) [:: 0%N] (List.rev gens) [:: 1%N]
  | _ => [:: 0%N]
  end.
Definition all_dims_in (sym : list mat -> nat -> nat -> bool) (ds : list nat) : bool :=
  List.forallb (fun x => let: (s, i, l) := x in List.forallb (fun d => memb d ds) (setting_dims sym s i l)) all_settings.
Lemma linear_dims : all_dims_in sym_linear [:: 1; 2; 3]%N = true. Proof. vm_cast_no_check (eq_refl true). Qed.
Lemma any_dims : all_dims_in sym_any [:: 1; 2; 3; 4; 6]%N = true. Proof. vm_cast_no_check (eq_refl true). Qed.
Lemma inversion_dims : all_dims_in sym_inversion [:: 1; 2; 3; 4]%N = true. Proof. vm_cast_no_check (eq_refl true). Qed.

Local Open Scope ring_scope.
Section Iso.
Variables (rots std : list mat) (mul : nat -> nat -> nat) (e : nat) (P : qmat).
Hypotheses (LG : lists_group rots) (M : multiplication rots mul e) (GS : lists_group std)
  (E0 : nth_error std 0 = Some mid) (dP : ~ Qeq (qdet P) (inject_Z Z0))
  (iP : forall r, List.In r rots -> qintegral (qmul (qmul (qinv P) (qofz r)) P))
  (pm : Permutation std (List.map (conj_round P) rots)).
Variable ts : table.
Hypothesis tsE : get_cayley_table std = Ret ts.
Let n := size rots.
Lemma std_size : size std = n.
Proof. by have := Permutation_length pm; rewrite List.map_length. Qed.
Lemma nth_ltE (l : list mat) i : (i < size l)%N -> List.In (List.nth i l mid) l.
Proof. by move=> h; apply: List.nth_In; apply/ssrnat.ltP. Qed.
Lemma rots_nth_inj i j : (i < n)%N -> (j < n)%N -> List.nth i rots mid = List.nth j rots mid -> i = j.
Proof. by move=> hi hj; apply: (proj1 (List.NoDup_nth rots mid) (lg_nodup _ LG)); apply/ssrnat.ltP. Qed.
Lemma iso_exists : exists f : nat -> nat, [/\ forall i, (i < n)%N -> (f i < n)%N, f 0%N = e,
  forall i j, (i < n)%N -> (j < n)%N -> f (tget ts i j) = mul (f i) (f j),
  forall j, (j < n)%N -> exists2 i, (i < n)%N & f i = j &
  forall i, (i < n)%N -> conj_round P (List.nth (f i) rots mid) = List.nth i std mid].
Proof.
have ex i : (i < n)%N -> exists2 j, (j < n)%N & conj_round P (List.nth j rots mid) = List.nth i std mid.
  move=> hi; have := nth_ltE (l := std) (i := i); rewrite std_size => /(_ hi) /(Permutation_in _ pm).
  move=> /List.in_map_iff [r [e1 /(In_nth_lt _ _ mid) [j [hj e2]]]].
  by exists j; [exact/ssrnat.ltP|rewrite e2].
pose f i := if find_index (meqb (List.nth i std mid)) (List.map (conj_round P) rots) is Some j then j else 0%N.
have fP i : (i < n)%N -> (f i < n)%N /\ conj_round P (List.nth (f i) rots mid) = List.nth i std mid.
  move=> hi; have [j hj ej] := ex i hi; rewrite /f.
  case E: find_index => [k|]; last first.
    have inj : List.In (List.nth i std mid) (List.map (conj_round P) rots).
      by apply/List.in_map_iff; exists (List.nth j rots mid); split=> //; exact: nth_ltE.
    by have := proj1 (find_index_None _ _) E _ inj; rewrite meqb_refl.
  have hk := find_index_lt _ _ _ E; rewrite List.map_length in hk; split; first exact/ssrnat.ltP.
  case: (proj1 (find_index_Some _ _ _) E) => -[a [ha /meqb_eq em]] _.
  move: ha; rewrite em List.nth_error_map; case Ex: (nth_error rots k) => [x|] //= [ex1].
  by rewrite (List.nth_error_nth _ _ _ Ex) ex1.
have [_ [_ S3]] := cayley_rot_spec _ _ tsE.
have sl : List.length std = n := std_size.
have tlt i j : (i < n)%N -> (j < n)%N -> (tget ts i j < n)%N.
  by move=> /ssrnat.ltP hi /ssrnat.ltP hj; apply/ssrnat.ltP; rewrite -sl in hi hj *; case: (S3 i j hi hj).
have n0 : (0 < n)%N by rewrite -std_size; case: (std) E0.
have inr i : (i < n)%N -> List.In (List.nth i rots mid) rots by exact: nth_ltE.
have cinj := conj_round_inj P rots dP iP.
have cmul a b : List.In a rots -> List.In b rots -> conj_round P (mmul a b) = mmul (conj_round P a) (conj_round P b).
  exact: conj_round_mul.
exists f; split=> [i hi||i j hi hj|j hj|i hi].
- by case: (fP i hi).
- have [h1 h2] := fP 0%N n0; apply: rots_nth_inj => //; first exact: mt_e M.
  rewrite (mt_id M); apply: cinj; [exact: inr|exact: (lg_id _ LG)|].
  by rewrite h2 conj_round_1 // (List.nth_error_nth _ _ _ E0).
- have [h1 h2] := fP i hi; have [h3 h4] := fP j hj; have [h5 h6] := fP _ (tlt i j hi hj).
  apply: rots_nth_inj => //; first exact: (mt_lt M).
  rewrite (mt_mul M) //; apply: cinj; [exact: inr|apply: (lg_mul _ LG); exact: inr|].
  rewrite (cmul _ _ (inr _ h1) (inr _ h3)) h6 h2 h4.
  by have hi' := hi; have hj' := hj; move: hi' hj' => /ssrnat.ltP hi' /ssrnat.ltP hj'; rewrite -sl in hi' hj'; case: (S3 i j hi' hj') => _ [-> _].
- have : List.In (conj_round P (List.nth j rots mid)) std.
    by apply: (Permutation_in _ (Permutation_sym pm)); apply: List.in_map; exact: inr.
  move=> /(In_nth_lt _ _ mid) [i [hi ei]]; have hi' : (i < n)%N by rewrite -sl; apply/ssrnat.ltP.
  exists i => //; have [h1 h2] := fP i hi'; apply: rots_nth_inj => //; apply: cinj; rewrite ?h2 //; exact: inr.
- by case: (fP i hi).
Qed.
End Iso.

Section PointDims.
Variables (C : numClosedFieldType) (rots : list mat) (mul : nat -> nat -> nat) (e : nat).
Hypotheses (LG : lists_group rots) (M : multiplication rots mul e).
Variables (sym : list mat -> nat -> nat -> bool) (ds : list nat).
Hypothesis chk : all_dims_in sym ds = true.
Variable mu : nat -> nat -> C.
Hypothesis fs : ifactor_system (size rots) mul e mu.
Variables (s : string) (P : qmat) (settings : list (list mat)) (std : list mat).
Hypotheses (hs : dict_get pg_dataset s = Ret settings) (hstd : List.In std settings)
  (dP : ~ Qeq (qdet P) (inject_Z Z0))
  (iP : forall r, List.In r rots -> qintegral (qmul (qmul (qinv P) (qofz r)) P))
  (pm : Permutation std (List.map (conj_round P) rots)).
Hypothesis symP : forall f : nat -> nat, (forall i, (i < size rots)%N -> (f i < size rots)%N) -> f 0%N = e ->
  (forall i, (i < size rots)%N -> conj_round P (List.nth (f i) rots mid) = List.nth i std mid) ->
  forall z x, (z < size rots)%N -> (x < size rots)%N -> sym std z x -> mu (f z) (f x) = mu (f x) (f z).

Theorem point_dims d (D : nat -> 'M[C]_d) : iprojrep (size rots) mul e mu D -> iirreducible (size rots) D -> List.In d ds.
Proof.
move=> pD iD; have [i hi] := List.In_nth_error _ _ hstd.
have [GS [E0 _]] := setting_facts _ _ _ _ hs hi.
have K := proj1 (List.forallb_forall _ _) all_chains_ok _ (in_all_settings _ _ _ _ hs hi).
have D0 := proj1 (List.forallb_forall _ _) chk _ (in_all_settings _ _ _ _ hs hi).
move: K D0; rewrite /chain_ok /setting_dims; case: (get_generators s i) => [[gens|]|] //.
have [ts tsE] := cayley_rot_total std (lg_mul _ GS); rewrite /table_or_nil tsE.
have sz : size std = size rots := std_size pm.
rewrite -[List.length std]/(size std) sz => /andP [_ cc] /List.forallb_forall dd.
have n0 : (0 < size rots)%N by rewrite -sz; case: (std) E0.
have En : List.nth 0 std mid = mid by apply: List.nth_error_nth.
have G : group_law (size rots) (tget ts) 0.
  by rewrite -sz; apply: (cayley_rot_group_law std ts 0%N GS tsE) => //; rewrite -[List.length _]/(size std) sz; exact/ssrnat.ltP.
have W : wf_table (size rots) ts by rewrite -sz; exact: (cayley_wf std ts tsE).
have [f [f1 f2 f3 f4 f5]] := iso_exists LG M E0 dP iP pm tsE.
have S0 : ChainSpec.subgroup (size rots) (tget ts) 0 [:: 0%N].
  split; [by repeat constructor; case|by move=> x [<-|[]]; apply/ssrnat.ltP|by left|].
  by move=> x y [<-|[]] [<-|[]]; left; rewrite (gl_1l _ _ _ G) //; apply/ssrnat.ltP.
have [F [dF Fx]] := dims_run_sound (sym std) [:: 1%N] S0 cc.
have tlt a b : (a < size rots)%N -> (b < size rots)%N -> (tget ts a b < size rots)%N.
  by move=> /ssrnat.ltP ha /ssrnat.ltP hb; apply/ssrnat.ltP; apply: (gl_closed _ _ _ G).
have fs' : ifactor_system (size rots) (tget ts) 0 (fun a b => mu (f a) (f b)).
  case: fs => h1 h2 h3; split=> [a b c ha hb hc|a b ha hb|]; last by rewrite f2.
    by rewrite !f3 //; apply: h1; exact: f1.
  by apply: h2; exact: f1.
have pD' : iprojrep (size rots) (tget ts) 0 (fun a b => mu (f a) (f b)) (fun a => D (f a)).
  case: pD => h1 h2; split=> [|a b ha hb]; first by rewrite f2.
  by rewrite f3 //; apply: h2; exact: f1.
have iD' : iirreducible (size rots) (fun a => D (f a)).
  case: iD => h1 h2; split=> // m X hX; apply: h2 => j /f4 [a ha <-]; exact: hX.
apply/memb_In/dd; exact: (irrep_dims W G fs' (symP f1 f2 f5) dF Fx pD' iD').
Qed.
End PointDims.

Lemma fs_unit (C : numClosedFieldType) n mul e (mu : nat -> nat -> C) : group_law n mul e -> ifactor_system n mul e mu ->
  forall x, (x < n)%N -> mu e x = 1 /\ mu x e = 1.
Proof.
move=> G [h1 h2 h3] x xn; have en : (e < n)%N by apply/ssrnat.ltP; exact: (gl_e _ _ _ G).
have e1 y : (y < n)%N -> mul e y = y by move=> /ssrnat.ltP h; exact: (gl_1l _ _ _ G).
have e2 y : (y < n)%N -> mul y e = y by move=> /ssrnat.ltP h; exact: (gl_1r _ _ _ G).
have nz i j : (i < n)%N -> (j < n)%N -> mu i j != 0.
  by move=> hi hj; rewrite -normr_gt0 h2.
split.
  by have := h1 e e x en en xn; rewrite !e1 // h3; apply: mulfI; exact: nz.
have := h1 x e e xn en en; rewrite e1 // e2 // h3 mulr1 => h.
by apply: (mulfI (nz x e xn en)); rewrite -h mulr1.
Qed.

Lemma conj_round_inversion P r : ~ Qeq (qdet P) (inject_Z Z0) -> qintegral (qmul (qmul (qinv P) (qofz r)) P) ->
  conj_round P r = mneg mid -> r = mneg mid.
Proof.
move=> dP iP er; apply: qofz_inj.
have h : qmeq (qofz (mneg mid)) (qmul (qmul (qinv P) (qofz r)) P) by rewrite -er; exact: qofz_qround iP.
have c : qmeq (qmul P (qofz (mneg mid))) (qmul (qofz (mneg mid)) P).
  by rewrite /qmeq /qmul /qofz /=; repeat split; ring.
have k : qmeq (qofz r) (qmul (qmul P (qofz (mneg mid))) (qinv P)).
  setoid_rewrite h; rewrite -> !qmul_assoc, (qinv_r P dP), qmul_1l, <- qmul_assoc, (qinv_r P dP), qmul_1r; exact: qmeq_refl.
apply: (qmeq_trans _ _ _ k); setoid_rewrite c; rewrite <- qmul_assoc, (qinv_r P dP), qmul_1r; exact: qmeq_refl.
Qed.

(** The factors of a unitary representation form a factor system. *)
Lemma rep_fs (C : numClosedFieldType) n mul e (mu : nat -> nat -> C) d (D : nat -> 'M[C]_d) : group_law n mul e -> (0 < d)%N ->
  iprojrep n mul e mu D -> iunitary n D -> ifactor_system n mul e mu.
Proof.
move=> G d0 [h1 h2] u.
have en : (e < n)%N by apply/ssrnat.ltP; exact: (gl_e _ _ _ G).
have cl a b : (a < n)%N -> (b < n)%N -> (mul a b < n)%N.
  by move=> /ssrnat.ltP ha /ssrnat.ltP hb; apply/ssrnat.ltP; exact: (gl_closed _ _ _ G).
have as' a b c : (a < n)%N -> (b < n)%N -> (c < n)%N -> mul a (mul b c) = mul (mul a b) c.
  by move=> /ssrnat.ltP ha /ssrnat.ltP hb /ssrnat.ltP hc; exact: (gl_assoc _ _ _ G).
pose i0 := Ordinal d0.
have cancel (a b : C) x : (x < n)%N -> a *: D x = b *: D x -> a = b.
  move=> xn /(congr1 (fun X : 'M[C]_d => (X *m adj (D x)) i0 i0)).
  by rewrite -!scalemxAl u // !mxE !eqxx !mulr1.
split=> [a b c ha hb hc|a b ha hb|].
- apply: (cancel _ _ (mul a (mul b c))); first by rewrite !cl.
  have -> : (mu a (mul b c) * mu b c) *: D (mul a (mul b c)) = D a *m (D b *m D c).
    by rewrite (h2 b c) // -scalemxAr h2 ?cl // scalerA mulrC.
  rewrite mulmxA (h2 a b) // -scalemxAl (h2 (mul a b) c) ?cl // scalerA mulrC; congr (_ *: D _).
  by rewrite as'.
- have := u (mul a b) (cl a b ha hb).
  have : (D a *m D b) *m adj (D a *m D b) = 1%:M.
    by rewrite adjM mulmxA -[D a *m D b *m _]mulmxA u // mulmx1 u.
  rewrite h2 // adjZ -scalemxAl -scalemxAr scalerA => e1 e2; rewrite e2 in e1.
  move: e1 => /(congr1 (fun X : 'M[C]_d => X i0 i0)); rewrite !mxE !eqxx mulr1 => nn.
  by apply/eqP; rewrite -(@eqr_expn2 _ 2) ?normr_ge0 ?ler01 // normCK nn expr1n.
apply: (cancel _ _ e en); rewrite scale1r; have := h2 e e en en; rewrite h1 mulmx1.
have -> : mul e e = e by apply: (gl_1l _ _ _ G); apply/ssrnat.ltP.
by rewrite h1.
Qed.

Section Claims.
Variables (C : numClosedFieldType) (E : numpy C) (rots : list mat) (mul : nat -> nat -> nat) (e : nat).
Hypotheses (LG : lists_group rots) (M : multiplication rots mul e) (sp : spglib_ok E rots).
(** Linear representations of a crystallographic point group have dimension at most 3. *)
Theorem point_linear_dims d (D : nat -> 'M[C]_d) : iprojrep (size rots) mul e (fun _ _ => 1) D -> iirreducible (size rots) D ->
  List.In d [:: 1; 2; 3]%N.
Proof.
move: sp; rewrite /spglib_ok; case: (spglib_pointgroup E rots) => s P [dP iP [settings [std [h1 h2 h3]]]].
have fs : ifactor_system (size rots) mul e (fun _ _ => 1 : C) by split=> *; rewrite ?normr1.
exact: (point_dims LG M linear_dims fs h1 h2 dP iP h3).
Qed.
(** Projective representations, for any factor system. *)
Theorem point_any_dims (mu : nat -> nat -> C) d (D : nat -> 'M[C]_d) : ifactor_system (size rots) mul e mu ->
  iprojrep (size rots) mul e mu D -> iirreducible (size rots) D -> List.In d [:: 1; 2; 3; 4; 6]%N.
Proof.
move=> fs; move: sp; rewrite /spglib_ok; case: (spglib_pointgroup E rots) => s P [dP iP [settings [std [h1 h2 h3]]]].
apply: (point_dims LG M any_dims fs h1 h2 dP iP h3) => f f1 f2 _ z x zn xn.
have G := mult_group_law LG M.
case/orP=> /Nat.eqb_eq ->; rewrite f2; first by have [-> ->] := fs_unit G fs (f1 _ xn).
by have [-> ->] := fs_unit G fs (f1 _ zn).
Qed.
(** The same when the inversion, if present, satisfies mu(I, x) = mu(x, I). *)
Theorem point_inversion_dims (mu : nat -> nat -> C) d (D : nat -> 'M[C]_d) : ifactor_system (size rots) mul e mu ->
  (forall z x, (z < size rots)%N -> (x < size rots)%N -> List.nth z rots mid = mneg mid -> mu z x = mu x z) ->
  iprojrep (size rots) mul e mu D -> iirreducible (size rots) D -> List.In d [:: 1; 2; 3; 4]%N.
Proof.
move=> fs inv; move: sp; rewrite /spglib_ok; case: (spglib_pointgroup E rots) => s P [dP iP [settings [std [h1 h2 h3]]]].
apply: (point_dims LG M inversion_dims fs h1 h2 dP iP h3) => f f1 f2 f5 z x zn xn.
have G := mult_group_law LG M.
have I y : (y < size rots)%N -> meqb (List.nth y std mid) (mneg mid) -> List.nth (f y) rots mid = mneg mid.
  move=> yn /meqb_eq e1; have := f5 y yn; rewrite e1.
  have inr : List.In (List.nth (f y) rots mid) rots by apply: nth_ltE; exact: f1.
  by apply: conj_round_inversion => //; exact: iP.
case/orP=> [/orP [/orP [] /Nat.eqb_eq ->|/(I z zn) h]|/(I x xn) h].
- by rewrite f2; have [-> ->] := fs_unit G fs (f1 _ xn).
- by rewrite f2; have [-> ->] := fs_unit G fs (f1 _ zn).
- by apply: inv h; exact: f1.
- by symmetry; apply: inv h; exact: f1.
Qed.
End Claims.
