(** Lemmas for tilings, bases and grids. *)
From Coq Require Import List Arith Lia Reals Bool Lra Psatz ZArith Permutation.
From Verif Require Import Common FeatModel FeatSpec UtilProofs.
Import ListNotations.

(** * Mixed radix numbers *)
Fixpoint mr (ns ds : list nat) : nat :=
  match ns, ds with n :: ns', d :: ds' => d + n * mr ns' ds' | _, _ => 0 end.
Fixpoint digits (ns : list nat) (v : nat) : list nat :=
  match ns with [] => [] | n :: ns' => Nat.modulo v n :: digits ns' (Nat.div v n) end.

Lemma prod_pos : forall ns, Forall (fun n => 1 <= n) ns -> 1 <= prod ns.
Proof. induction 1; simpl; [lia|]. unfold prod in *. nia. Qed.

Lemma fold_mul : forall ns a, fold_left Nat.mul ns a = a * prod ns.
Proof. induction ns as [|n ns IH]; intros; simpl; [lia|]. rewrite IH. unfold prod; simpl. lia. Qed.

Lemma mr_lt : forall ns ds, Forall2 lt ds ns -> mr ns ds < prod ns.
Proof. intros ns ds H. induction H as [|d n ds ns L F IH]; simpl; [lia|]. unfold prod in *. simpl. nia. Qed.

Lemma digits_mr : forall ns ds, Forall2 lt ds ns -> digits ns (mr ns ds) = ds.
Proof.
  intros ns ds H. induction H as [|d n ds ns L F IH]; simpl; auto.
  rewrite (Nat.mul_comm n), Nat.mod_add, Nat.mod_small by lia. rewrite Nat.div_add, Nat.div_small by lia.
  simpl. rewrite IH. reflexivity.
Qed.

Lemma mr_digits : forall ns v, Forall (fun n => 1 <= n) ns -> v < prod ns -> mr ns (digits ns v) = v.
Proof.
  induction ns as [|n ns IH]; intros v F L; simpl in *; [lia|]. inversion F; subst.
  rewrite IH; auto.
  - pose proof (Nat.div_mod v n ltac:(lia)). lia.
  - apply Nat.div_lt_upper_bound; [lia|]. exact L.
Qed.

Lemma digits_ok : forall ns v, Forall (fun n => 1 <= n) ns -> Forall2 lt (digits ns v) ns.
Proof. induction ns; intros v F; simpl; constructor; inversion F; subst; auto. apply Nat.mod_upper_bound. lia. Qed.

Lemma mr_inj : forall ns d1 d2, Forall2 lt d1 ns -> Forall2 lt d2 ns -> mr ns d1 = mr ns d2 -> d1 = d2.
Proof. intros ns d1 d2 A B E. rewrite <- (digits_mr ns d1 A), <- (digits_mr ns d2 B), E. reflexivity. Qed.

Lemma Forall2_len : forall A B (P : A -> B -> Prop) l m, Forall2 P l m -> length l = length m.
Proof. induction 1; simpl; auto. Qed.

Lemma Forall2_lt_nth : forall ds ns i, Forall2 lt ds ns -> i < length ns -> nth i ds 0 < nth i ns 0.
Proof. intros ds ns i H. revert i. induction H; intros [|i] Hi; simpl in *; try lia. apply IHForall2. lia. Qed.

(** * Tiles *)
Fixpoint comps (rs : list (R * R)) (ns : list nat) (x : list R) : list nat :=
  match rs, ns, x with r :: rs', N :: ns', xi :: x' => comp_index r N xi :: comps rs' ns' x' | _, _, _ => [] end.

Lemma in_rangeb_iff : forall r x, in_rangeb r x = true <-> (fst r <= x < snd r)%R.
Proof. intros. unfold in_rangeb. destruct (Rle_dec _ _); [destruct (Rlt_dec _ _)|]; split; intros; try lra; congruence. Qed.

Lemma inside_cons : forall r rs xi x, inside (r :: rs) (xi :: x) <-> in_rangeb r xi = true /\ inside rs x.
Proof.
  intros. unfold inside. rewrite in_rangeb_iff. split.
  - intros [L H]. simpl in L. split; [apply (H 0); simpl; lia|]. split; [lia|]. intros i Hi. apply (H (S i)). simpl. lia.
  - intros [A [L H]]. split; [simpl; lia|]. intros [|i] Hi; [exact A|]. apply (H i). simpl in Hi. lia.
Qed.

Lemma comp_index_cell : forall r N x, (fst r <= x < snd r)%R -> 1 <= N ->
  comp_index r N x < N /\ in_cell r N (comp_index r N x) x.
Proof.
  intros [lo hi] N x H HN. unfold comp_index, in_cell. simpl in *.
  assert (PN : (0 < INR N)%R) by (apply lt_0_INR; lia).
  assert (PW : (0 < hi - lo)%R) by lra. set (z := (INR N * (x - lo) / (hi - lo))%R).
  assert (EZ : (z * (hi - lo) = INR N * (x - lo))%R) by (unfold z; field; lra).
  assert (Z0 : (0 <= z < INR N)%R) by (split; apply (Rmult_le_reg_r (hi - lo)) || apply (Rmult_lt_reg_r (hi - lo)); nra).
  pose proof (Int_part_bounds z) as B.
  assert (I0 : (0 <= Int_part z)%Z).
  { assert (-1 < Int_part z)%Z; [|lia]. apply lt_IZR. lra. }
  assert (EI : INR (Z.to_nat (Int_part z)) = IZR (Int_part z)) by (rewrite INR_IZR_INZ, Z2Nat.id; auto).
  split.
  - apply INR_lt. rewrite EI. lra.
  - rewrite EI. set (k := IZR (Int_part z)) in *.
    assert (EX : (x = lo + z * ((hi - lo) / INR N))%R).
    { apply (Rmult_eq_reg_l (INR N)); [|lra]. replace (INR N * (lo + z * ((hi - lo) / INR N)))%R with (INR N * lo + z * (hi - lo))%R by (field; lra). lra. }
    assert (PQ : (0 < (hi - lo) / INR N)%R) by (apply Rdiv_lt_0_compat; lra).
    set (q := ((hi - lo) / INR N)%R) in *. split; rewrite EX; [|]; nra.
Qed.

Lemma in_cell_unique : forall r N x k j, (fst r < snd r)%R -> 1 <= N -> in_cell r N k x -> in_cell r N j x -> k = j.
Proof.
  intros [lo hi] N x k j H HN A B. unfold in_cell in *. simpl in *.
  assert (PQ : (0 < (hi - lo) / INR N)%R) by (apply Rdiv_lt_0_compat; [lra|apply lt_0_INR; lia]).
  set (q := ((hi - lo) / INR N)%R) in *.
  destruct (lt_eq_lt_dec k j) as [[L|L]|L]; auto; exfalso; apply le_INR in L; rewrite S_INR in L; nra.
Qed.

Lemma tile_loop_spec : forall rs ns x mult idx, length ns = length rs -> length x = length rs ->
  (inside rs x -> tile_loop rs ns x mult idx = Some (idx + mult * mr ns (comps rs ns x))) /\
  (~ inside rs x -> tile_loop rs ns x mult idx = None).
Proof.
  induction rs as [|r rs IH]; intros [|N ns] [|xi x] mult idx LN LX; simpl in LN, LX; try lia.
  - simpl. split; [intros _; f_equal; lia|]. intros H. exfalso. apply H. split; auto. simpl. lia.
  - cbn [tile_loop comps mr]. rewrite inside_cons. destruct (in_rangeb r xi) eqn:E.
    + destruct (IH ns x (mult * N) (idx + comp_index r N xi * mult)) as [A B]; [lia|lia|]. split.
      * intros [_ H]. rewrite A by auto. f_equal. lia.
      * intros H. apply B. intros X. apply H. auto.
    + split; [intros [X _]; discriminate|auto].
Qed.

Lemma comps_ok : forall rs ns x, Forall (fun n => 1 <= n) ns -> length ns = length rs -> inside rs x ->
  Forall2 lt (comps rs ns x) ns.
Proof.
  induction rs as [|r rs IH]; intros [|N ns] x F LN H; simpl in LN; try lia; [constructor|].
  destruct x as [|xi x]; [destruct H; simpl in *; lia|]. apply inside_cons in H. destruct H as [A B].
  inversion F; subst. cbn [comps]. constructor; [|apply IH; auto]. apply comp_index_cell; auto. apply in_rangeb_iff; auto.
Qed.

Lemma comps_nth : forall rs ns x i, length ns = length rs -> length x = length rs -> i < length rs ->
  nth i (comps rs ns x) 0 = comp_index (nth i rs (0, 0)%R) (nth i ns 0) (nth i x 0%R).
Proof.
  induction rs as [|r rs IH]; intros [|N ns] [|xi x] [|i] LN LX Hi; simpl in LN, LX, Hi; try lia; auto.
  cbn [comps nth]. apply IH; lia.
Qed.

Lemma comps_length : forall rs ns x, length ns = length rs -> length x = length rs -> length (comps rs ns x) = length rs.
Proof. induction rs as [|r rs IH]; intros [|N ns] [|xi x] LN LX; simpl in *; try lia. rewrite IH; lia. Qed.

(** * argmin *)
Lemma argmin_from_spec : forall l i best m (f : nat -> R), (forall k, k < length l -> nth k l 0%R = f (i + k)) ->
  f best = m -> best < i -> (forall k, k < i -> (m <= f k)%R) -> (forall k, k < best -> (m < f k)%R) ->
  let r := argmin_from l i best m in r < i + length l /\ (forall k, k < i + length l -> (f r <= f k)%R) /\ (forall k, k < r -> (f r < f k)%R).
Proof.
  induction l as [|v l IH]; intros i best m f HF HB HI HM HS; simpl.
  - rewrite Nat.add_0_r. rewrite HB. auto.
  - assert (FV : f i = v) by (rewrite <- (Nat.add_0_r i), <- HF by (simpl; lia); reflexivity).
    assert (HF' : forall k, k < length l -> nth k l 0%R = f (S i + k)).
    { intros k Hk. replace (S i + k) with (i + S k) by lia. rewrite <- HF by (simpl; lia). reflexivity. }
    destruct (Rlt_dec v m) as [L|L].
    + destruct (IH (S i) i v f HF' FV ltac:(lia)) as (A & B & C).
      * intros k Hk. destruct (Nat.eq_dec k i) as [->|N]; [lra|]. specialize (HM k ltac:(lia)). lra.
      * intros k Hk. specialize (HM k Hk). lra.
      * split; [lia|]. split; auto. intros k Hk. apply B. lia.
    + destruct (IH (S i) best m f HF' HB ltac:(lia)) as (A & B & C); auto.
      * intros k Hk. destruct (Nat.eq_dec k i) as [->|N]; [lra|]. apply HM; lia.
      * split; [lia|]. split; auto. intros k Hk. apply B. lia.
Qed.

Lemma argmin_spec : forall l, l <> [] -> argmin l < length l /\
  (forall k, k < length l -> (nth (argmin l) l 0 <= nth k l 0)%R) /\ (forall k, k < argmin l -> (nth (argmin l) l 0 < nth k l 0)%R).
Proof.
  intros [|v l] H; [congruence|]. unfold argmin.
  apply (argmin_from_spec l 1 0 v (fun k => nth k (v :: l) 0%R)); auto; try lia.
  intros k Hk. replace k with 0 by lia. simpl. lra.
Qed.

(** * Polynomial exponents *)
Fixpoint compositions (n s : nat) : list (list nat) :=
  match n with
  | 0 => []
  | 1 => [[s]]
  | S n' => flat_map (fun b => map (cons (s - b)) (compositions n' b)) (seq 0 (S s))
  end.

Lemma find_zeros : forall (f : nat -> bool) k i, (forall j, 2 <= j < i -> f j = false) -> f i = true -> 2 <= i < 2 + k ->
  find f (seq 2 k) = Some i.
Proof.
  intros f k i HF HT HI.
  assert (G : forall m a, (forall j, a <= j < i -> f j = false) -> a <= i < a + m -> find f (seq a m) = Some i).
  { induction m as [|m IH]; intros a HA Hm; [lia|]. simpl. destruct (Nat.eq_dec a i) as [->|N].
    - rewrite HT. reflexivity.
    - rewrite HA by lia. apply IH; [|lia]. intros j Hj. apply HA. lia. }
  apply G; auto.
Qed.

Lemma setnth_app_r : forall A (l r : list A) i x, setnth (l ++ r) (length l + i) x = l ++ setnth r i x.
Proof. induction l; intros; simpl; auto. rewrite IHl. reflexivity. Qed.

Lemma nth_app_r : forall A (l r : list A) i d, nth (length l + i) (l ++ r) d = nth i r d.
Proof. induction l; intros; simpl; auto. Qed.

Lemma poly_step_spec : forall pre a k z,
  poly_step (pre ++ S a :: repeat 0 k ++ [z]) = pre ++ a :: S z :: repeat 0 k.
Proof.
  intros pre a k z. unfold poly_step. set (p := pre ++ S a :: repeat 0 k ++ [z]).
  assert (L : length p = length pre + (k + 2)) by (unfold p; rewrite app_length; simpl; rewrite app_length, repeat_length; simpl; lia).
  rewrite (find_zeros _ (length p - 1) (k + 2)).
  - rewrite L. replace (length pre + (k + 2) - (k + 2)) with (length pre + 0) by lia.
    unfold p. rewrite nth_app_r. cbn [nth]. cbv zeta. rewrite !setnth_app_r. cbn [setnth].
    replace (S a - 1) with a by lia. 
    replace (length pre + (k + 2) - 1) with (length pre + S k) by lia.
    rewrite !nth_app_r. cbn [nth].
    assert (Z : nth k (repeat 0 k ++ [z]) 0 = z) by (rewrite app_nth2; rewrite repeat_length; [rewrite Nat.sub_diag; reflexivity|lia]).
    rewrite Z. destruct (Nat.ltb_spec 2 (k + 2)) as [K|K].
    + replace (length pre + 0 + 1) with (length pre + 1) by lia. rewrite setnth_app_r. cbn [setnth].
      destruct k as [|k]; [lia|]. cbn [repeat app setnth]. rewrite setnth_app_r. cbn [setnth].
      f_equal. f_equal. f_equal.
      clear. induction k; simpl; auto. f_equal. auto.
    + assert (k = 0) by lia. subst k. rewrite setnth_app_r. cbn [repeat app setnth]. rewrite Nat.add_1_r. reflexivity.
  - intros j Hj. apply Nat.ltb_ge. rewrite L. unfold p.
    replace (length pre + (k + 2) - j) with (length pre + S (k + 1 - j)) by lia. rewrite nth_app_r. cbn [nth].
    rewrite app_nth1 by (rewrite repeat_length; lia). rewrite nth_repeat. lia.
  - apply Nat.ltb_lt. rewrite L. unfold p. replace (length pre + (k + 2) - (k + 2)) with (length pre + 0) by lia.
    rewrite nth_app_r. simpl. lia.
  - rewrite L. lia.
Qed.

(** consecutive elements related by the step, under any prefix *)
Fixpoint chained (l : list (list nat)) : Prop :=
  match l with
  | p :: ((q :: _) as l') => (forall pre, poly_step (pre ++ p) = pre ++ q) /\ chained l'
  | _ => True
  end.

Lemma chained_app : forall l1 l2, chained l1 -> chained l2 ->
  (forall p q, last l1 [] = p -> hd [] l2 = q -> l1 <> [] -> l2 <> [] -> forall pre, poly_step (pre ++ p) = pre ++ q) -> chained (l1 ++ l2).
Proof.
  induction l1 as [|p l1 IH]; intros l2 A B H; [auto|]. destruct l1 as [|q l1].
  - simpl. destruct l2 as [|q l2]; [exact I|]. split; [|exact B]. apply (H p q); auto; discriminate.
  - destruct A as [A1 A2]. simpl. split; [exact A1|]. apply (IH l2); auto. intros p' q' Hp Hq N1 N2. apply H; auto; discriminate.
Qed.

Lemma chained_cons : forall a l, chained l -> chained (map (cons a) l).
Proof.
  intros a. induction l as [|p l IH]; intros H; [exact I|]. destruct l as [|q l]; [exact I|]. destruct H as [H1 H2].
  simpl. split; [|exact (IH H2)]. intros pre. specialize (H1 (pre ++ [a])). rewrite <- !app_assoc in H1. exact H1.
Qed.

Lemma compositions_S : forall n s, compositions (S (S n)) s = flat_map (fun b => map (cons (s - b)) (compositions (S n) b)) (seq 0 (S s)).
Proof. reflexivity. Qed.

Lemma last_app_ne : forall A (l1 l2 : list A) d, l2 <> [] -> last (l1 ++ l2) d = last l2 d.
Proof.
  intros A l1 l2 d H. induction l1 as [|x l1 IH]; auto. simpl. destruct (l1 ++ l2) eqn:E; [|exact IH].
  apply app_eq_nil in E. destruct E. congruence.
Qed.
Lemma last_map_ne : forall A B (f : A -> B) l d e, l <> [] -> last (map f l) e = f (last l d).
Proof. intros A B f l d e. induction l as [|x l IH]; intros H; [congruence|]. destruct l; auto. simpl in *. apply IH. discriminate. Qed.

Lemma compositions_ends : forall n s, compositions (S n) s <> [] /\ hd [] (compositions (S n) s) = s :: repeat 0 n /\
  last (compositions (S n) s) [] = repeat 0 n ++ [s].
Proof.
  induction n as [|n IH]; intros s; [simpl; repeat split; discriminate|].
  rewrite compositions_S. split; [|split].
  - destruct (IH 0) as (N & _). cbn [seq flat_map]. destruct (compositions (S n) 0); [congruence|]. discriminate.
  - destruct (IH 0) as (N & H & _). cbn [seq flat_map]. destruct (compositions (S n) 0) as [|p l]; [congruence|].
    simpl in H. simpl. rewrite H, Nat.sub_0_r. reflexivity.
  - destruct (IH s) as (N & _ & H). rewrite seq_S, flat_map_app. cbn [plus flat_map]. rewrite app_nil_r.
    rewrite last_app_ne by (intros X; apply map_eq_nil in X; congruence).
    rewrite (last_map_ne _ _ _ _ []) by auto. rewrite H, Nat.sub_diag. reflexivity.
Qed.

Lemma compositions_chained : forall n s, chained (compositions (S n) s).
Proof.
  induction n as [|n IH]; intros s; [exact I|]. rewrite compositions_S.
  assert (G : forall m, m <= S s -> chained (flat_map (fun b => map (cons (s - b)) (compositions (S n) b)) (seq 0 m)) /\
    (m > 0 -> last (flat_map (fun b => map (cons (s - b)) (compositions (S n) b)) (seq 0 m)) [] = (s - (m - 1)) :: repeat 0 n ++ [m - 1])).
  { induction m as [|m IHm]; intros Hm; [split; [exact I|lia]|]. destruct (IHm ltac:(lia)) as [C1 C2].
    rewrite seq_S, flat_map_app. cbn [plus flat_map]. rewrite app_nil_r.
    destruct (compositions_ends n m) as (N & H & L). split.
    - apply chained_app; auto; [apply chained_cons, IH|].
      intros p q Hp Hq N1 N2 pre. destruct m as [|m]; [simpl in N1; congruence|]. rewrite C2 in Hp by lia.
      destruct (compositions (S n) (S m)) as [|q0 l0]; [congruence|]. simpl in H. simpl in Hq. subst q0 p q.
      replace (s - (S m - 1)) with (S (s - S m)) by lia. replace (S m - 1) with m by lia. apply poly_step_spec.
    - intros _. rewrite last_app_ne by (intros X; apply map_eq_nil in X; congruence).
      rewrite (last_map_ne _ _ _ _ []) by auto. rewrite L. replace (S m - 1) with m by lia. reflexivity. }
  apply G. lia.
Qed.

Lemma compositions_In : forall n s e, In e (compositions (S n) s) <-> length e = S n /\ degree e = s.
Proof.
  induction n as [|n IH]; intros s e.
  - simpl. unfold degree. split.
    + intros [<-|[]]. simpl. auto.
    + intros [L D]. destruct e as [|a [|]]; simpl in *; try lia. left. f_equal. lia.
  - rewrite compositions_S, in_flat_map. split.
    + intros (b & Hb & H). apply in_map_iff in H. destruct H as (q & <- & Hq). apply IH in Hq. apply in_seq in Hb.
      destruct Hq as [L D]. unfold degree in *. simpl. lia.
    + intros [L D]. destruct e as [|a e]; [simpl in L; lia|]. unfold degree in D. simpl in D, L.
      exists (degree e). unfold degree in *. split; [apply in_seq; lia|]. apply in_map_iff. exists e.
      split; [f_equal; lia|]. apply IH. unfold degree. lia.
Qed.

Lemma NoDup_app_intro : forall A (l1 l2 : list A), NoDup l1 -> NoDup l2 -> (forall x, In x l1 -> ~ In x l2) -> NoDup (l1 ++ l2).
Proof.
  induction l1 as [|x l1 IH]; intros l2 A1 A2 H; auto. inversion A1; subst. simpl. constructor.
  - rewrite in_app_iff. intros [X|X]; [auto|]. apply (H x); simpl; auto.
  - apply IH; auto. intros y Hy. apply H. simpl; auto.
Qed.

Lemma compositions_NoDup : forall n s, NoDup (compositions (S n) s).
Proof.
  induction n as [|n IH]; intros s; [repeat constructor; simpl; tauto|]. rewrite compositions_S.
  assert (G : forall m, m <= S s -> NoDup (flat_map (fun b => map (cons (s - b)) (compositions (S n) b)) (seq 0 m))).
  { induction m as [|m IHm]; intros Hm; [constructor|]. rewrite seq_S, flat_map_app. cbn [plus flat_map]. rewrite app_nil_r.
    apply NoDup_app_intro; [apply IHm; lia| |].
    - apply FinFun.Injective_map_NoDup; [|apply IH]. intros x y E. congruence.
    - intros x Hx Hy. apply in_flat_map in Hx. destruct Hx as (b & Hb & Hx). apply in_seq in Hb.
      apply in_map_iff in Hx, Hy. destruct Hx as (q & <- & _). destruct Hy as (q' & E & _). injection E. lia. }
  apply G. lia.
Qed.

Lemma last_nth_sub : forall (p : list nat), nth (length p - 1) p 0 = last p 0.
Proof.
  induction p as [|a p IH]; auto. destruct p as [|b p]; auto.
  change (last (a :: b :: p) 0) with (last (b :: p) 0). rewrite <- IH. simpl. rewrite Nat.sub_0_r. reflexivity.
Qed.

Lemma last_le_degree : forall p, last p 0 <= degree p.
Proof. induction p as [|a p IH]; simpl; [lia|]. destruct p; unfold degree in *; simpl in *; lia. Qed.

Lemma last_eq_degree : forall n p, length p = S n -> last p 0 = degree p -> p = repeat 0 n ++ [degree p].
Proof.
  induction n as [|n IH]; intros p L H.
  - destruct p as [|a [|]]; simpl in *; try lia. unfold degree. simpl. f_equal. lia.
  - destruct p as [|a p]; [simpl in L; lia|]. simpl in L. destruct p as [|b p]; [simpl in L; lia|].
    change (last (a :: b :: p) 0) with (last (b :: p) 0) in H. pose proof (last_le_degree (b :: p)).
    assert (D : degree (a :: b :: p) = a + degree (b :: p)) by reflexivity. rewrite D in *.
    assert (a = 0) by lia. subst a. rewrite (IH (b :: p)) at 1 by lia. reflexivity.
Qed.

Lemma poly_while_chain : forall s n l p, chained (p :: l) -> NoDup (p :: l) ->
  (forall q, In q (p :: l) -> length q = S n /\ degree q = s) -> last (p :: l) [] = repeat 0 n ++ [s] ->
  forall fuel, length l <= fuel -> poly_while fuel s p = Some (l, repeat 0 n ++ [s]).
Proof.
  intros s n. induction l as [|q l IH]; intros p C ND HI HL fuel HF.
  - simpl in HL. subst p. destruct fuel; cbn [poly_while]; rewrite last_nth_sub, last_last, Nat.ltb_irrefl; reflexivity.
  - simpl in HF. destruct fuel as [|fuel]; [lia|]. cbn [poly_while]. rewrite last_nth_sub.
    destruct (HI p (or_introl eq_refl)) as [Lp Dp].
    assert (N : last p 0 < s).
    { pose proof (last_le_degree p). destruct (Nat.eq_dec (last p 0) (degree p)) as [E|E]; [|lia].
      exfalso. apply (last_eq_degree n) in E; auto. rewrite Dp in E. rewrite <- HL in E. inversion ND as [|? ? NI _]; subst x l0.
      apply NI. rewrite E at 1. change (last (p :: q :: l) []) with (last (q :: l) []).
      clear. generalize q. induction l as [|a l IHl]; intros q0; [simpl; auto|]. right. apply IHl. }
    destruct (Nat.ltb_spec (last p 0) s); [|lia]. destruct C as [C1 C2]. specialize (C1 []). simpl in C1.
    cbv zeta. rewrite C1. rewrite IH; [reflexivity|exact C2|inversion ND; auto|intros; apply HI; right; auto|exact HL|lia].
Qed.

Lemma poly_degree_spec : forall s n fuel, length (compositions (S n) s) <= fuel ->
  poly_degree fuel s (repeat 0 (S n)) = Some (compositions (S n) s, repeat 0 (S n)).
Proof.
  intros s n fuel HF. unfold poly_degree. destruct (compositions_ends n s) as (N & H & L).
  pose proof (compositions_chained n s) as C. pose proof (compositions_NoDup n s) as ND.
  pose proof (compositions_In n s) as HI. destruct (compositions (S n) s) as [|p l]; [congruence|].
  simpl in H. change (setnth (repeat 0 (S n)) 0 s) with (s :: repeat 0 n). rewrite <- H.
  cbv zeta. rewrite (poly_while_chain s n l p C ND); [|intros q Hq; apply HI; auto|exact L|simpl in HF; lia].
  f_equal. f_equal. rewrite app_length, repeat_length. cbn [length]. replace (n + 1 - 1) with n by lia.
  pose proof (setnth_app_r _ (repeat 0 n) [s] 0 0) as E. rewrite repeat_length, Nat.add_0_r in E. rewrite E.
  cbn [setnth]. clear. induction n; simpl; auto. f_equal. exact IHn.
Qed.

(** * Basis evaluation *)
Lemma poly_basis_fold : forall e x o acc,
  fold_left (fun out q => (out * nth (fst q) x 0 ^ snd q)%R)
    (combine (filter (fun i => negb (Nat.eqb (nth (i - o) e 0) 0)) (seq o (length e))) (filter (fun d => negb (Nat.eqb d 0)) e)) acc
  = (acc * fold_right Rmult 1 (map (fun i => nth i x 0 ^ nth (i - o) e 0%nat) (seq o (length e))))%R.
Proof.
  induction e as [|d e IH]; intros x o acc; [simpl; ring|].
  cbn [length seq map fold_right filter]. rewrite Nat.sub_diag. change (nth 0 (d :: e) 0) with d.
  assert (F : filter (fun i => negb (Nat.eqb (nth (i - o) (d :: e) 0) 0)) (seq (S o) (length e)) =
              filter (fun i => negb (Nat.eqb (nth (i - S o) e 0) 0)) (seq (S o) (length e))).
  { apply filter_ext_in. intros i Hi. apply in_seq in Hi. replace (i - o) with (S (i - S o)) by lia. reflexivity. }
  assert (M : map (fun i => (nth i x 0 ^ nth (i - o) (d :: e) 0%nat)%R) (seq (S o) (length e)) =
              map (fun i => (nth i x 0 ^ nth (i - S o) e 0%nat)%R) (seq (S o) (length e))).
  { apply map_ext_in. intros i Hi. apply in_seq in Hi. replace (i - o) with (S (i - S o)) by lia. reflexivity. }
  rewrite F, M. destruct (Nat.eqb_spec d 0) as [->|N]; cbn [negb].
  - rewrite IH. simpl. ring.
  - cbn [combine fold_left fst snd]. rewrite IH. ring.
Qed.

(** * Fourier *)
Lemma fourier_digits : forall d n v, fourier_c d n v = digits (repeat (n + 1) d) v.
Proof. induction d; intros; simpl; auto. rewrite IHd. reflexivity. Qed.

Lemma prod_repeat : forall n d, prod (repeat n d) = n ^ d.
Proof. induction d as [|d IH]; [reflexivity|]. unfold prod in *. cbn [repeat fold_right Nat.pow]. rewrite IH. reflexivity. Qed.

(** * Grid *)
Lemma grid_rows_spec : forall R0 C i v g k, k <= R0 ->
  forall a b, fold_left (grid_row R0 C i v) (seq 0 k) g a b =
    if (i * R0 <=? a) && (a <? i * R0 + k) then (if b <? C then (if Nat.eqb i 0 then g a b else g (a - i * R0) b) else if Nat.eqb b C then v else g a b) else g a b.
Proof.
  intros R0 C i v g k. induction k as [|k IH]; intros Hk a b.
  - simpl. destruct (Nat.leb_spec (i * R0) a); simpl; auto. destruct (Nat.ltb_spec a (i * R0 + 0)); auto. lia.
  - rewrite seq_S, fold_left_app. cbn [plus fold_left]. unfold grid_row at 1.
    destruct (Nat.eqb_spec a (k + i * R0)) as [->|N].
    + replace (i * R0 <=? k + i * R0) with true by (symmetry; apply Nat.leb_le; lia).
      replace (k + i * R0 <? i * R0 + S k) with true by (symmetry; apply Nat.ltb_lt; lia). cbn [andb].
      destruct (Nat.ltb_spec b C) as [B|B].
      * rewrite IH by lia. destruct (Nat.eqb_spec i 0) as [->|I].
        -- simpl. rewrite Nat.add_0_r. destruct (Nat.ltb_spec k k); [lia|]. reflexivity.
        -- replace (k + i * R0 - i * R0) with k by lia. 
           replace (i * R0 <=? k) with false by (symmetry; apply Nat.leb_gt; nia). reflexivity.
      * destruct (Nat.eqb b C); auto. rewrite IH by lia.
        replace (k + i * R0 <? i * R0 + k) with false by (symmetry; apply Nat.ltb_ge; lia). rewrite andb_false_r. reflexivity.
    + rewrite IH by lia. 
      replace (a <? i * R0 + S k) with (a <? i * R0 + k).
      * reflexivity.
      * destruct (Nat.ltb_spec a (i * R0 + k)), (Nat.ltb_spec a (i * R0 + S k)); auto; lia.
Qed.

Lemma grid_dim_spec : forall R0 C vals g, 1 <= R0 -> 1 <= length vals ->
  forall a b, a < R0 * length vals -> b <= C ->
    grid_dim R0 C vals g a b = if b <? C then g (Nat.modulo a R0) b else nth (Nat.div a R0) vals 0%R.
Proof.
  intros R0 C vals g HR HV. unfold grid_dim.
  assert (G : forall m, m <= length vals ->
    (forall a b, a < R0 * m -> b <= C ->
      fold_left (fun g i => fold_left (grid_row R0 C i (nth i vals 0%R)) (seq 0 R0) g) (seq 0 m) g a b =
      if b <? C then g (Nat.modulo a R0) b else nth (Nat.div a R0) vals 0%R) /\
    (forall a b, a < R0 -> b < C ->
      fold_left (fun g i => fold_left (grid_row R0 C i (nth i vals 0%R)) (seq 0 R0) g) (seq 0 m) g a b = g a b)).
  { induction m as [|m IH]; intros Hm; [split; intros; simpl in *; auto; lia|]. destruct (IH ltac:(lia)) as [A B].
    set (h := fold_left (fun g i => fold_left (grid_row R0 C i (nth i vals 0%R)) (seq 0 R0) g) (seq 0 m) g) in *.
    assert (E : forall a b, fold_left (fun g i => fold_left (grid_row R0 C i (nth i vals 0%R)) (seq 0 R0) g) (seq 0 (S m)) g a b =
      if (m * R0 <=? a) && (a <? m * R0 + R0) then (if b <? C then (if Nat.eqb m 0 then h a b else h (a - m * R0) b) else if Nat.eqb b C then nth m vals 0%R else h a b) else h a b).
    { intros a b. rewrite seq_S, fold_left_app. cbn [plus fold_left]. apply grid_rows_spec. lia. }
    split.
    - intros a b Ha Hb. rewrite E. destruct (Nat.leb_spec (m * R0) a) as [L|L]; cbn [andb].
      + replace (a <? m * R0 + R0) with true by (symmetry; apply Nat.ltb_lt; nia).
        assert (D : Nat.div a R0 = m) by (symmetry; apply (Nat.div_unique a R0 m (a - m * R0)); nia).
        assert (M : Nat.modulo a R0 = a - m * R0) by (symmetry; apply (Nat.mod_unique a R0 m (a - m * R0)); nia).
        rewrite D, M. destruct (Nat.ltb_spec b C) as [Bc|Bc].
        * destruct (Nat.eqb_spec m 0) as [->|Nm]; [simpl; rewrite Nat.sub_0_r; apply B; lia|]. apply B; [|lia]. nia.
        * replace (Nat.eqb b C) with true by (symmetry; apply Nat.eqb_eq; lia). reflexivity.
      + apply A; [nia|auto].
    - intros a b Ha Hb. rewrite E. destruct (Nat.leb_spec (m * R0) a) as [L|L]; cbn [andb]; [|apply B; auto].
      destruct (Nat.ltb_spec a (m * R0 + R0)); [|apply B; auto].
      replace (b <? C) with true by (symmetry; apply Nat.ltb_lt; auto). destruct (Nat.eqb_spec m 0) as [->|Nm]; [apply B; auto|].
      assert (m = 0) by nia. congruence. }
  intros a b Ha Hb. apply (proj1 (G (length vals) (le_n _))); auto.
Qed.

Lemma grid_dim_rows : forall cs ns0 g,
  Forall (fun n => 1 <= n) ns0 -> Forall (fun c : list R => c <> []) cs ->
  forall pre : list (list R), map (@length R) pre = ns0 ->
  (forall a b, a < prod ns0 -> b < length pre -> g a b = nth (nth b (digits ns0 a) 0) (nth b pre []) 0%R) ->
  forall a b, a < prod (map (@length R) (pre ++ cs)) -> b < length (pre ++ cs) ->
    grid_loop cs (prod ns0) (length pre) g a b = nth (nth b (digits (map (@length R) (pre ++ cs)) a) 0) (nth b (pre ++ cs) []) 0%R.
Proof.
  induction cs as [|vals cs IH]; intros ns0 g F0 FC pre HP HG a b Ha Hb.
  - simpl. rewrite app_nil_r in *. subst ns0. apply HG; auto.
  - inversion FC as [|? ? NE FC']; subst x l. cbn [grid_loop].
    assert (LV : 1 <= length vals) by (destruct vals; simpl; [congruence|lia]).
    assert (PA : forall l1 l2, prod (l1 ++ l2) = prod l1 * prod l2).
    { unfold prod. induction l1; intros; simpl; [lia|]. rewrite IHl1. lia. }
    assert (DA : forall l1 l2 v, Forall (fun n => 1 <= n) l1 -> digits (l1 ++ l2) v = digits l1 v ++ digits l2 (Nat.div v (prod l1))).
    { induction l1 as [|n l1 IHl]; intros l2 v Fl; cbn [app digits]; [change (prod []) with 1; rewrite Nat.div_1_r; reflexivity|]. inversion Fl; subst.
      rewrite IHl by auto. f_equal. f_equal. f_equal. unfold prod. cbn [fold_right]. rewrite Nat.div_div; auto; [lia|].
      pose proof (prod_pos l1 ltac:(auto)). unfold prod in *. lia. }
    assert (DM : forall l v, Forall (fun n => 1 <= n) l -> digits l (Nat.modulo v (prod l)) = digits l v).
    { intros l v Fl. rewrite <- (digits_mr l (digits l v)) by (apply digits_ok; auto). f_equal.
      revert v. induction l as [|n l IHl]; intros v; [simpl; reflexivity|]. inversion Fl; subst. cbn [digits mr].
      rewrite <- IHl by auto. unfold prod. cbn [fold_right]. rewrite Nat.mod_mul_r by (pose proof (prod_pos l ltac:(auto)); unfold prod in *; lia). lia. }
    assert (DL : forall l v, length (digits l v) = length l) by (induction l; intros; simpl; auto).
    assert (P0 : 1 <= prod ns0) by (apply prod_pos; auto).
    assert (Q : prod ns0 * length vals = prod (ns0 ++ [length vals])) by (rewrite PA; unfold prod at 3; simpl; lia).
    rewrite Q. replace (length pre + 1) with (length (pre ++ [vals])) by (rewrite app_length; reflexivity).
    replace (pre ++ vals :: cs) with ((pre ++ [vals]) ++ cs) in * by (rewrite <- app_assoc; reflexivity).
    apply IH; auto.
    + apply Forall_app. auto.
    + rewrite map_app, HP. reflexivity.
    + intros a' b' Ha' Hb'. rewrite app_length in Hb'. cbn [length] in Hb'. rewrite <- Q in Ha'.
      rewrite grid_dim_spec by (auto; lia). rewrite DA by auto. 
      assert (LN : length ns0 = length pre) by (rewrite <- HP, map_length; auto).
      destruct (Nat.ltb_spec b' (length pre)) as [L|L].
      * rewrite HG; [|apply Nat.mod_upper_bound; lia|auto]. rewrite DM by auto.
        rewrite !app_nth1; auto. rewrite DL. lia.
      * assert (E : b' = length pre) by lia. subst b'.
        rewrite (app_nth2 pre), Nat.sub_diag by lia. rewrite app_nth2 by (rewrite DL; lia). rewrite DL, LN, Nat.sub_diag.
        cbn [nth digits]. rewrite Nat.mod_small; [reflexivity|]. apply Nat.div_lt_upper_bound; lia.
Qed.
