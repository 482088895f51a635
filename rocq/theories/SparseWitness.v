(** * SparseWitness: concrete compressed matrices. *)
From Coq Require String.
From Coq Require Import QArith Qreals Reals Permutation FunctionalExtensionality.
From Verif Require Import Prelude Lists Tree Perp RealOps Clf Reg Api Validate Hyper ApiSpec OptProofs Exec Witness HyperSpec HyperExec HyperWitness
  Sparse SparseSpec SparseProofs SparseHyper.
Local Open Scope nat_scope.

(** Decidable validity. *)
Definition comp_okb {A} (c : compressed A) : bool :=
  Nat.eqb (length (k_indptr c)) (1 + k_major c) && Nat.eqb (hd 0 (k_indptr c)) 0 &&
  forallb (fun j => nth j (k_indptr c) 0 <=? nth (1 + j) (k_indptr c) 0) (seq 0 (k_major c)) &&
  Nat.eqb (last (k_indptr c) 0) (length (k_data c)) && Nat.eqb (length (k_indices c)) (length (k_data c)) &&
  forallb (fun i => i <? k_minor c) (k_indices c).
Lemma comp_okb_ok {A} (c : compressed A) : comp_okb c = true -> comp_ok c.
Proof.
  unfold comp_okb. rewrite !andb_true_iff, !Nat.eqb_eq, !forallb_forall. intros (((((H1 & H2) & H3) & H4) & H5) & H6).
  split; [auto|]. split; [auto|]. split.
  - intros j Hj. apply Nat.leb_le. apply H3. apply in_seq. lia.
  - split; [auto|]. split; [auto|]. apply Forall_forall. intros i Hi. apply Nat.ltb_lt. auto.
Qed.

Definition csmap {A B} (f : A -> B) (c : compressed A) : compressed B :=
  mkComp (k_major c) (k_minor c) (k_dtype c) (k_indptr c) (k_indices c) (map f (k_data c)).
Definition smap {A B} (f : A -> B) (M : smat A) : smat B := match M with Csr c => Csr (csmap f c) | Csc c => Csc (csmap f c) end.

Lemma smap_ok {A B} (f : A -> B) M : s_ok M -> s_ok (smap f M).
Proof. destruct M; cbn; unfold comp_ok; cbn; rewrite map_length; auto. Qed.
Lemma stored_at_map {A B} (f : A -> B) z c i j : stored_at (f z) (csmap f c) i j = map f (stored_at z c i j).
Proof.
  unfold stored_at, csmap, in_lane. cbn [k_data k_indices k_indptr]. rewrite map_length, map_map. apply map_ext. intros k. apply map_nth.
Qed.
Lemma entry_map {A B} (f : A -> B) z a z' a' M i j : f z = z' -> (forall x y, f (a x y) = a' (f x) (f y)) ->
  entry z' a' (smap f M) i j = f (entry z a M i j).
Proof.
  intros <- Ha. unfold entry.
  assert (forall l x, fold_left a' (map f l) (f x) = f (fold_left a l x)) as Hf.
  { induction l as [|v l IH]; intros x; cbn; [reflexivity|]. now rewrite <- Ha, IH. }
  destruct M as [c|c]; cbn [smap stored]; rewrite stored_at_map; apply Hf.
Qed.

(** A 4 x 3 matrix with rows (0,2,0), (1,0,0), (5,0,3), (4,0,1), stored by rows with an explicit zero, unsorted
    indices and the 3 split into 1 + 2; and the same matrix stored by columns without these. *)
Definition sx_csr : smat Z := Csr (mkComp 4 3 I64 [0; 1; 3; 6; 8] [1; 0; 2; 2; 0; 2; 0; 2] [2; 1; 0; 1; 5; 2; 4; 1]%Z).
Definition sx_csc : smat Z := Csc (mkComp 3 4 I64 [0; 3; 4; 6] [1; 2; 3; 0; 2; 3] [1; 5; 4; 2; 3; 1]%Z).
Definition sx_y (i : nat) : nat := nth i [0; 0; 1; 1] 0.
Section Names.
Import String.
Definition sx_names : list String.string := ["a"; "b"; "c"]%string.
End Names.
(** One query row. *)
Definition sx_query : smat Z := Csr (mkComp 1 3 I64 [0; 2] [2; 2] [2; 2]%Z).

Lemma sx_ok : s_ok sx_csr /\ s_ok sx_csc /\ s_ok sx_query.
Proof. split; [|split]; cbn [s_ok sx_csr sx_csc sx_query]; apply comp_okb_ok; reflexivity. Qed.

Lemma sx_dense : a_data (toarray 0%Z Z.add sx_csr) = [0; 2; 0; 1; 0; 0; 5; 0; 3; 4; 0; 1]%Z /\
  a_data (toarray 0%Z Z.add sx_csc) = a_data (toarray 0%Z Z.add sx_csr).
Proof. split; reflexivity. Qed.

Definition sx_total (l : list Z) : Z := fold_left Z.add l 0%Z.
Lemma sx_adds M : adds_up 0%Z Z.add sx_total M.
Proof. intros i j. reflexivity. Qed.

Definition sx_fit (M : smat Z) := sparse_fit 0%Z Z.add sx_total (zfeat 0) (qlik (9 # 10) 0) sx_y sx_names zsame false 0 (Some [1; 1]%Z) M.
Definition sx_tree := Eval vm_compute in (match sx_fit sx_csr with Ok t => t | Err _ => Leaf (mkInfo None 0 0 None []) end).
Lemma sx_fit_tree : sx_fit sx_csr = Ok sx_tree /\ sx_fit sx_csc = Ok sx_tree /\ is_leaf sx_tree = false /\
  spredict (schild_indices 0%Z Z.add (zfeat 0)) (fun i => zargmax (i_post i)) sx_tree sx_query 0 = Ok [1].
Proof. repeat apply conj; vm_compute; reflexivity. Qed.

(** Hyperplane trees. *)
Definition sh_Q : smat Q := Csr (mkComp 4 2 F64 [0; 1; 2; 6; 8] [1; 0; 1; 0; 1; 0; 0; 1] [2; 1; 1; 3; 2; 2; 4; 4]%Q).
Definition sh : smat R := smap Q2R sh_Q.
Definition sh_y : list nat := [0; 0; 1; 1].
Definition sh_d : hset (list Q) nat :=
  mkHSet 4 2 (fun i => map (entry 0%Q Qplus sh_Q i) (seq 0 2)) (fun i => nth i sh_y 0).
Definition sh_cs : list (list Q) := [[3 # 5; 4 # 5]; [1; 0]]%Q.
Definition sh_tree := Eval vm_compute in (match hexec (9 # 10) 0 false [1; 1]%Z (same_cands sh_cs) sh_d with
  | Ok t => t | Err _ => Leaf (mkInfo None 0 0 None []) end).
Lemma sh_run : hexec (9 # 10) 0 false [1; 1]%Z (same_cands sh_cs) sh_d = Ok sh_tree.
Proof. vm_compute. reflexivity. Qed.

Lemma sh_ok : s_ok sh.
Proof. apply smap_ok. cbn [s_ok sh_Q]. apply comp_okb_ok. reflexivity. Qed.

Lemma reads_sort_R : reads_keys sort_R.
Proof.
  intros f g n H. unfold sort_R, argsort_by.
  assert (forall is acc, (forall i, In i is -> i < n) -> (forall i, In i acc -> i < n) ->
    fold_left (fun acc i => insert_by Rleb f i acc) is acc = fold_left (fun acc i => insert_by Rleb g i acc) is acc) as G.
  { induction is as [|i is IH]; intros acc Hi Ha; cbn [fold_left]; [reflexivity|].
    assert (insert_by Rleb f i acc = insert_by Rleb g i acc) as ->.
    { clear IH. induction acc as [|j acc IHa]; cbn; [reflexivity|].
      rewrite (H j) by (apply Ha; now left). rewrite (H i) by (apply Hi; now left). rewrite IHa by (intros; apply Ha; now right). reflexivity. }
    apply IH; [intros; apply Hi; now right|]. intros j Hj.
    assert (In j (i :: acc)) as Hj'.
    { clear -Hj. induction acc as [|k acc IHa]; cbn in *; [tauto|]. destruct (Rleb (g k) (g i)); cbn in *; intuition. }
    destruct Hj' as [<-|Hj']; [apply Hi; now left|auto]. }
  apply G; [|intros i []]. intros i Hi. apply in_seq in Hi. lia.
Qed.

Lemma sh_set : hsetR sh_d = mkHSet (s_rows sh) (s_cols sh) (dense_row sh) (fun i => nth i (map INR sh_y) 0%R).
Proof.
  unfold hsetR, sh_d. cbn [hs_n hs_dim hs_X hs_y]. f_equal.
  - extensionality i. unfold vecR, dense_row. rewrite map_map. apply map_ext. intros j. symmetry.
    apply entry_map; [apply Q2R_0|apply Q2R_plus].
  - extensionality i. symmetry. apply (map_nth INR sh_y 0 i).
Qed.

Definition sh_h : hyper (list R) := mkHyper (Q2R (9 # 10)) (Some (map IZR [1; 1]%Z)) 0 false (Q2R 0).
Lemma sh_fit : permutes sort_R /\ reads_keys sort_R /\ s_ok sh /\ length (map INR sh_y) = s_rows sh /\
  exists t, hclf_fit vecR sort_R (same_cands sh_cs) sh_h (mkHSet (s_rows sh) (s_cols sh) (dense_row sh) (fun i => nth i (map INR sh_y) 0%R)) = Ok t /\
    is_leaf t = false.
Proof.
  split; [intros key n; apply sort_R_sorts|]. split; [apply reads_sort_R|]. split; [apply sh_ok|]. split; [reflexivity|].
  exists (htreeR sh_tree). split; [|reflexivity]. rewrite <- sh_set.
  refine (proj2 (hexec_sound 2 (9 # 10) 0 0 false [1; 1]%Z (same_cands sh_cs) sh_d sh_tree _ _ _ _ sh_run)).
  - split; reflexivity.
  - discriminate.
  - vm_compute. reflexivity.
  - intros path c Hc. cbn in Hc. destruct Hc as [<-|[<-|[]]]; reflexivity.
Qed.
