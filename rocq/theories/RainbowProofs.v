(** Lemmas for RainbowProps.v: adding n-step returns to a sum tree, and counting windows. *)
From Coq Require Import List Arith Lia Bool Reals Lra Permutation.
From Verif Require Import Common ReplayModel ReplaySpec ReplayProofs SumTreeModel SumTreeSpec SumTreeProofs SumTreeProps CorePerProofs.
Import ListNotations.

Section Add.
Context {St Ac Ps : Type}.
Notation sample := (sample St Ac Ps).
Notation stree := (stree St Ac Ps).
Variable mx : nat.
Hypothesis M2 : 2 <= mx.

Section Loop.
Variables (ds : list sample) (n : nat) (g : R) (d : sample) (p : R).
Hypothesis Hn : 1 <= n.
Hypothesis Hp : (0 < p)%R.

Let r0 (t : nat) : R := nth t (map s_reward ds) 0%R.

Lemma nheld_loop : forall fuel i rew t,
  st_wf mx t -> prio_inv mx t -> i <= length ds + 1 -> length ds + 2 <= fuel + i ->
  length rew = length ds -> (forall t, i <= t -> nth t rew 0%R = r0 t) ->
  exists t' rew', st_add_loop fuel ds (repeat p (length ds)) n g i rew t = Some (t', rew') /\ st_wf mx t' /\ prio_inv mx t' /\
    held t' = lastn mx (held t ++ map (fun x => (x, p)) (map (nstep_sample ds n g d) (todo _ _ _ ds n i))).
Proof.
  induction fuel as [|fuel IH]; intros i rew t W PI Hi Hf HL Hr; [lia|].
  cbn [st_add_loop]. destruct (Nat.ltb_spec (i + n) (length ds + 1)) as [Hlt|Hge].
  - destruct (inner_spec (map s_last ds) g i (n - 1) 0 rew r0) as (rew' & L' & T' & D).
    + rewrite map_length; lia.
    + lia.
    + unfold psum; simpl. rewrite Hr by lia. rewrite Nat.add_0_r. lra.
    + intros; apply Hr; lia.
    + destruct D as [(D1 & D2 & D3) | (q & P1 & P2 & P3)].
      * rewrite D1. unfold obind at 1.
        assert (MR : mk_row ds rew' i (n - 1) = Some (nstep_sample ds n g d i)).
        { unfold mk_row. rewrite (nth_error_nth' _ ds i d) by lia. simpl.
          rewrite (nth_error_nth' _ rew' i 0%R) by lia. simpl.
          rewrite (nth_error_nth' _ ds (i + (n - 1)) d) by lia. simpl.
          unfold nstep_sample. f_equal. f_equal. rewrite D3. replace (S (0 + (n - 1))) with n by lia.
          apply (psum_nstep _ _ _ ds n g d); lia. }
        rewrite MR. unfold obind at 1.
        rewrite (nth_error_nth' _ (repeat p (length ds)) i 0%R) by (rewrite repeat_length; lia). unfold obind at 1.
        assert (NP : nth i (repeat p (length ds)) 0%R = p).
        { apply (repeat_spec (length ds)). apply nth_In. rewrite repeat_length. lia. }
        rewrite NP.
        destruct (st_store_spec mx t (nstep_sample ds n g d i) p M2 W) as (m1 & t1 & A & B & W1 & _). rewrite B. unfold obind at 1.
        assert (P1 : prio_inv mx t1) by (apply (st_store_prio mx t t1 (nstep_sample ds n g d i) p M2 W PI Hp B)).
        destruct (IH (i + 1) rew' t1 W1 P1) as (t2 & rew2 & A2 & W2 & I2 & C2); auto; try lia.
        -- intros k Hk. apply T'. lia.
        -- exists t2, rew2. split; [exact A2|]. split; [exact W2|]. split; [exact I2|].
           rewrite C2, (held_store mx M2 t _ p t1 W B). rewrite lastn_app, <- app_assoc. f_equal. f_equal.
           unfold todo at 2. replace (length ds + 1 - n - i) with (S (length ds + 1 - n - (i + 1))) by lia.
           cbn [seq filter]. rewrite (window_ok_true _ _ _ ds n d) by (lia || (intros; apply D2; lia)).
           cbn [map app]. unfold todo. replace (i + 1) with (S i) by lia. reflexivity.
      * rewrite P3. unfold obind at 1.
        destruct (IH (i + q + 1) rew' t W PI) as (t2 & rew2 & A2 & W2 & I2 & C2); auto; try lia.
        -- intros k Hk. apply T'. lia.
        -- exists t2, rew2. split; [exact A2|]. split; [exact W2|]. split; [exact I2|].
           rewrite C2. f_equal. f_equal. f_equal. f_equal. symmetry. apply todo_skip; try lia.
           intros k Hk Hw. apply (window_ok_false _ _ _ ds n d) with (p := i + q); auto; lia.
  - exists t, rew. split; [reflexivity|]. split; [exact W|]. split; [exact PI|].
    unfold todo. replace (length ds + 1 - n - i) with 0 by lia. cbn [seq filter map]. rewrite app_nil_r.
    symmetry. apply lastn_all. rewrite (held_len mx M2 t W). apply (data_len mx M2 t W).
Qed.
End Loop.

Lemma nheld_add : forall (ds : list sample) n p g t, st_wf mx t -> prio_inv mx t -> (0 < p)%R -> 1 <= n ->
  exists t' r, st_add t ds (repeat p (length ds)) n g = Some (t', r) /\ st_wf mx t' /\ prio_inv mx t' /\
    held t' = lastn mx (held t ++ map (fun x => (x, p)) (nstep_samples ds n g)).
Proof.
  intros ds n p g t W PI Hp Hn. unfold st_add. replace (forallb _ (repeat p (length ds))) with true.
  2:{ symmetry. apply forallb_forall. intros q Hq. apply repeat_spec in Hq. subst q. destruct (Rlt_dec 0 p); [reflexivity|lra]. }
  destruct (Nat.ltb_spec 0 n); [|lia]. destruct ds as [|d ds'].
  - cbn [length repeat map Nat.add st_add_loop]. destruct (Nat.ltb_spec n 1); [lia|]. exists t, []. split; [reflexivity|]. split; [exact W|]. split; [exact PI|].
    cbn [nstep_samples map]. rewrite app_nil_r. symmetry. apply lastn_all. rewrite (held_len mx M2 t W). apply (data_len mx M2 t W).
  - set (ds := d :: ds') in *.
    destruct (nheld_loop ds n g d p Hn Hp (length ds + 2) 0 (map s_reward ds) t W PI) as (t' & rew' & A & B & C & D); auto; try lia.
    + apply map_length.
    + exists t', rew'. split; [exact A|]. split; [exact B|]. split; [exact C|]. rewrite D. unfold todo, ds. rewrite Nat.sub_0_r. reflexivity.
Qed.
End Add.

(** * How many windows a dataset has *)
Section Count.
Context {St Ac Ps : Type}.
Notation sample := (sample St Ac Ps).

Definition wcount (n : nat) (ds : list sample) : nat := length (filter (window_ok ds n) (seq 0 (length ds + 1 - n))).

Lemma nstep_length : forall (ds : list sample) n g, 1 <= n -> length (nstep_samples ds n g) = wcount n ds.
Proof.
  intros [|d ds'] n g Hn.
  - unfold wcount. cbn [length nstep_samples]. replace (0 + 1 - n) with 0 by lia. reflexivity.
  - unfold nstep_samples, wcount. rewrite map_length. reflexivity.
Qed.

Lemma filter_map_len : forall A B (f : A -> B) (P : B -> bool) l, length (filter P (map f l)) = length (filter (fun x => P (f x)) l).
Proof. intros A B f P l. induction l as [|x l IH]; [reflexivity|]. cbn [map filter]. destruct (P (f x)); cbn [length]; rewrite IH; reflexivity. Qed.

Lemma wcount_cons : forall n (d : sample) ds, 1 <= n ->
  wcount n (d :: ds) = (if (n <=? length ds + 1) && window_ok (d :: ds) n 0 then 1 else 0) + wcount n ds.
Proof.
  intros n d ds Hn. unfold wcount. cbn [length].
  destruct (Nat.leb_spec n (length ds + 1)) as [H|H].
  - replace (S (length ds) + 1 - n) with (S (length ds + 1 - n)) by lia. cbn [seq filter andb].
    assert (E : length (filter (window_ok (d :: ds) n) (seq 1 (length ds + 1 - n))) = length (filter (window_ok ds n) (seq 0 (length ds + 1 - n)))).
    { rewrite <- seq_shift, filter_map_len. f_equal. }
    destruct (window_ok (d :: ds) n 0); cbn [length]; rewrite E; reflexivity.
  - replace (S (length ds) + 1 - n) with 0 by lia. replace (length ds + 1 - n) with 0 by lia. reflexivity.
Qed.

Lemma window0 : forall n (ds : list sample), window_ok ds n 0 = forallb (fun x => negb (s_last x)) (firstn (n - 1) ds).
Proof. intros. unfold window_ok, slice. cbn [skipn]. replace (0 + (n - 1) - 0) with (n - 1) by lia. reflexivity. Qed.

(** An unfinished piece of an episode. *)
Lemma wcount_open : forall n (b : list sample), 1 <= n -> Forall (fun x => s_last x = false) b -> wcount n b = length b + 1 - n.
Proof.
  intros n b Hn F. induction F as [|d b H F IH]; [unfold wcount; cbn; destruct n; [lia|]; destruct n; reflexivity|].
  rewrite wcount_cons, IH by auto. cbn [length]. rewrite window0.
  assert (W : forallb (fun x => negb (s_last x)) (firstn (n - 1) (d :: b)) = true).
  { apply forallb_forall. intros x Hx. assert (I : In x (d :: b)) by (rewrite <- (firstn_skipn (n - 1)); apply in_or_app; left; exact Hx).
    assert (FF : Forall (fun x => s_last x = false) (d :: b)) by (constructor; auto). rewrite Forall_forall in FF. rewrite (FF x I). reflexivity. }
  rewrite W, andb_true_r. destruct (Nat.leb_spec n (length b + 1)); lia.
Qed.

(** A finished episode in front of anything. *)
Lemma wcount_episode : forall n (b : list sample) z rest, 1 <= n -> Forall (fun x => s_last x = false) b -> s_last z = true ->
  wcount n ((b ++ [z]) ++ rest) = (length b + 2 - n) + wcount n rest.
Proof.
  intros n b z rest Hn F Z. induction F as [|d b H F IH].
  - cbn [app length]. rewrite wcount_cons by auto. rewrite window0. destruct (Nat.leb_spec n (length rest + 1)) as [L|L].
    + destruct n as [|[|n]]; [lia| |]; cbn [Nat.sub firstn forallb andb]; [lia|]. rewrite Z. cbn. lia.
    + cbn [andb]. lia.
  - cbn [app]. rewrite wcount_cons, IH by auto. cbn [length]. rewrite window0.
    assert (W : forallb (fun x => negb (s_last x)) (firstn (n - 1) (d :: (b ++ [z]) ++ rest)) = (n - 1 <=? S (length b))).
    { change (d :: (b ++ [z]) ++ rest) with (((d :: b) ++ [z]) ++ rest).
      assert (FF : Forall (fun x => s_last x = false) (d :: b)) by (constructor; auto). clear IH.
      generalize (n - 1) as m. revert FF. change (S (length b)) with (length (d :: b)). generalize (d :: b) as l. clear -Z.
      induction l as [|x l IH]; intros FF m.
      - destruct m; [reflexivity|]. cbn. rewrite Z. reflexivity.
      - inversion FF; subst. destruct m; [reflexivity|]. cbn [app firstn forallb length]. rewrite H1. cbn [negb andb]. rewrite IH by auto. reflexivity. }
    rewrite W, !app_length. cbn [length]. destruct (Nat.leb_spec n (length b + 1 + length rest + 1)), (Nat.leb_spec (n - 1) (S (length b))); cbn [andb]; lia.
Qed.
End Count.
