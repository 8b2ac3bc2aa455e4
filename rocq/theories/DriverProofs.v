(** Exactly what the driver of the table compressors returns or raises. *)
From Coq Require Import List NArith ZArith Arith Bool Lia.
From Verif Require Import Base Ends RouteSpec TablesModel TablesProofs.
Import ListNotations.
Local Open Scope nat_scope.

Section Driver.
  Variable compress : table -> res (list entry).
  Variable target : Z -> Z -> nat.
  Variables as_needed ordered accept_overflow : bool.
  Notation pos t := (t_x t, t_y t).
  Definition keeps (t : table) : Prop := as_needed = true /\ length (t_entries t) <= target (t_x t) (t_y t).
  Definition made_from (t t' : table) : Prop :=
    t_x t' = t_x t /\ t_y t' = t_y t /\ (keeps t -> t' = t) /\
    (~ keeps t -> compress t = Ok (t_entries t') /\ t_ndef t' = length (filter e_def (t_entries t'))).
  Definition too_long (t : table) : Prop :=
    ~ keeps t /\ exists es, compress t = Ok es /\ target (t_x t) (t_y t) < length es.

  Lemma keeps_spec : forall t,
    (as_needed && Nat.leb (length (t_entries t)) (target (t_x t) (t_y t)))%bool = true <-> keeps t.
  Proof. intros t. unfold keeps. rewrite andb_true_iff, Nat.leb_le. tauto. Qed.

  Lemma same_chip_spec : forall t ts, existsb (same_chip t) ts = true <-> In (pos t) (map (fun t => pos t) ts).
  Proof.
    intros t ts. rewrite existsb_exists, in_map_iff. unfold same_chip.
    split; intros (x & A & B).
    - apply andb_true_iff in B. rewrite !Z.eqb_eq in B. destruct B as [B1 B2]. exists x. split; [f_equal; congruence|exact A].
    - exists x. split; [exact B|]. injection A as A1 A2. rewrite A1, A2, !Z.eqb_refl. reflexivity.
  Qed.

  Lemma com_ndef : forall es t, t_ndef (fold_left com_add es t) = t_ndef t + length (filter e_def es).
  Proof.
    induction es as [|e es IH]; intros t; cbn [fold_left filter length]; [lia|]. rewrite IH.
    unfold com_add. cbn [t_ndef]. destruct (e_def e); cbn [length]; lia.
  Qed.

  Lemma problems_stay : forall todo done problems out ps,
    compress_loop compress target as_needed todo done problems = Ok (out, ps) -> problems <> [] -> ps <> [].
  Proof.
    induction todo as [|x todo IH]; intros done problems out ps H N; cbn [compress_loop] in H.
    - injection H as <- <-. auto.
    - destruct (_ && _)%bool.
      + apply bind_Ok_inv in H. destruct H as (d & _ & H). eapply IH; eauto.
      + apply bind_Ok_inv in H. destruct H as (es & _ & H). apply bind_Ok_inv in H. destruct H as (d & _ & H).
        apply IH in H; [auto|]. destruct (Nat.ltb _ _); [destruct problems; discriminate|auto].
  Qed.

  Lemma loop_exact : forall todo done problems,
    match compress_loop compress target as_needed todo done problems with
    | Ok (out, ps) => exists new, out = done ++ new /\ Forall2 made_from todo new /\
        (NoDup (map (fun t => pos t) done) -> NoDup (map (fun t => pos t) out)) /\
        (problems = [] -> (ps = [] <-> forall t, In t todo -> ~ too_long t))
    | Err e => (exists t, In t todo /\ ~ keeps t /\ compress t = Err e) \/
               (e = AlreadyExists /\ ~ NoDup (map (fun t => pos t) (done ++ todo)))
    end.
  Proof.
    induction todo as [|t todo IH]; intros done problems; cbn [compress_loop].
    - exists []. rewrite app_nil_r. split; auto. split; [constructor|]. split; auto. intros ->.
      split; [intros _ t []|auto].
    - assert (STEP : forall t' problems',
        (t_x t' = t_x t /\ t_y t' = t_y t /\ (keeps t -> t' = t) /\
         (~ keeps t -> compress t = Ok (t_entries t') /\ t_ndef t' = length (filter e_def (t_entries t')))) ->
        (problems = [] -> (problems' = [] <-> ~ too_long t)) -> (problems <> [] -> problems' <> []) ->
        match (let* done' := add_table done t' in compress_loop compress target as_needed todo done' problems') with
        | Ok (out, ps) => exists new, out = done ++ new /\ Forall2 made_from (t :: todo) new /\
            (NoDup (map (fun t => pos t) done) -> NoDup (map (fun t => pos t) out)) /\
            (problems = [] -> (ps = [] <-> forall x, In x (t :: todo) -> ~ too_long x))
        | Err e => (exists x, In x (t :: todo) /\ ~ keeps x /\ compress x = Err e) \/
                   (e = AlreadyExists /\ ~ NoDup (map (fun t => pos t) (done ++ t :: todo)))
        end).
      { intros t' problems' M P1 P2.
        assert (PE : pos t' = pos t) by (destruct M as (-> & -> & _); auto).
        unfold add_table. destruct (existsb (same_chip t') done) eqn:E; cbn [bind].
        - right. split; auto. apply same_chip_spec in E. rewrite PE in E. intro N. rewrite map_app in N.
          cbn [map] in N. apply NoDup_remove_2 in N. apply N. apply in_or_app. auto.
        - specialize (IH (done ++ [t']) problems').
          destruct (compress_loop compress target as_needed todo (done ++ [t']) problems') as [[out ps]|e] eqn:L.
          + destruct IH as (new & -> & F & N & P). exists (t' :: new).
            split; [now rewrite <- app_assoc|]. split; [constructor; auto|]. split.
            * intro ND. apply N. rewrite map_app. cbn [map].
              assert (X : ~ In (pos t') (map (fun t => pos t) done)).
              { intro I. apply same_chip_spec in I. congruence. }
              clear - ND X. induction (map (fun t => pos t) done) as [|y l IH]; cbn [app]; [constructor; [intros []|constructor]|].
              inversion ND; subst. constructor.
              -- rewrite in_app_iff. intros [I|[<-|[]]]; [auto|]. apply X. left; auto.
              -- apply IH; auto. intro. apply X. right; auto.
            * intros Z. specialize (P1 Z). destruct problems' as [|pr problems'].
              -- rewrite (P eq_refl). split.
                 ++ intros A x [<-|I]; [apply P1; auto|auto].
                 ++ intros A x I. apply A. right; auto.
              -- split.
                 ++ intro X. exfalso. apply problems_stay in L; [auto|discriminate].
                 ++ intros A. assert (~ too_long t) by (apply A; left; auto). apply P1 in H. discriminate.
          + destruct IH as [(x & I & R)|(-> & N)].
            * left. exists x. split; [right; auto|auto].
            * right. split; auto. rewrite <- app_assoc, map_app in N. cbn [app map] in N. rewrite PE in N.
              now rewrite map_app. }
      destruct (as_needed && Nat.leb (length (t_entries t)) (target (t_x t) (t_y t)))%bool eqn:A.
      + apply keeps_spec in A. apply STEP.
        * split; auto. split; auto. split; [auto|]. intro; contradiction.
        * intros ->. split; auto. intros _ (B & _). auto.
        * auto.
      + assert (A' : ~ keeps t) by (rewrite <- keeps_spec; congruence).
        destruct (compress t) as [es|e] eqn:C; cbn [bind].
        * destruct (fold_com_add es (empty_table (t_x t) (t_y t))) as (Fe & Fx & Fy).
          pose proof (com_ndef es (empty_table (t_x t) (t_y t))) as Fd.
          set (new1 := fold_left com_add es (empty_table (t_x t) (t_y t))) in *.
          cbn [empty_table t_entries t_x t_y t_ndef app Nat.add] in Fe, Fx, Fy, Fd.
          assert (TL : too_long t <-> target (t_x t) (t_y t) < length (t_entries new1)).
          { rewrite Fe. unfold too_long. rewrite C. split.
            - intros (_ & es' & X & Y). injection X as <-. auto.
            - intros X. split; auto. eauto. }
          apply STEP.
          -- split; auto. split; auto. split; [intro; contradiction|]. intros _. rewrite Fe, Fd. auto.
          -- intros ->. destruct (Nat.ltb_spec (target (t_x t) (t_y t)) (length (t_entries new1))) as [X|X].
             ++ split; [discriminate|]. intro Y. apply TL in X. contradiction.
             ++ split; auto. intros _ Y. apply TL in Y. lia.
          -- intros X. destruct (Nat.ltb _ _); [destruct problems; discriminate|auto].
        * left. exists t. split; [left; auto|]. auto.
  Qed.

  Lemma driver_exact : forall ts,
    match compress_tables compress target as_needed ordered accept_overflow ts [] with
    | Ok out => Forall2 made_from ts out /\ NoDup (map (fun t => pos t) out) /\
        (ordered = true -> accept_overflow = false -> Forall (fun t => length (t_entries t) <= target (t_x t) (t_y t)) out)
    | Err e => (exists t, In t ts /\ ~ keeps t /\ compress t = Err e) \/
               (e = AlreadyExists /\ ~ NoDup (map (fun t => pos t) ts)) \/
               (e = MinimisationFailed /\ ordered = true /\ accept_overflow = false /\ exists t, In t ts /\ too_long t)
    end.
  Proof.
    intros ts. destruct (compress_tables compress target as_needed ordered accept_overflow ts []) as [out|e] eqn:D.
    - destruct (driver_spec compress target as_needed ordered accept_overflow ts out D) as [_ F].
      unfold compress_tables in D. apply bind_Ok_inv in D. destruct D as ([done ps] & L & D).
      pose proof (loop_exact ts [] []) as X. rewrite L in X. destruct X as (new & -> & F2 & N & _). cbn [app] in *.
      assert (E : out = new) by (destruct ps; [|destruct (_ && _)%bool; [discriminate|]]; congruence). subst new.
      split; auto. split; [apply N; constructor|auto].
    - unfold compress_tables in D. pose proof (loop_exact ts [] []) as X.
      destruct (compress_loop compress target as_needed ts [] []) as [[done ps]|e'] eqn:L; cbn [bind] in D.
      + destruct X as (new & _ & _ & _ & P). specialize (P eq_refl). destruct ps as [|p ps]; [discriminate|].
        right. right. destruct ordered; [|discriminate]. destruct accept_overflow; [discriminate|].
        injection D as <-. split; auto. split; auto. split; auto.
        assert (G : ~ forall t, In t ts -> ~ too_long t).
        { intro A. apply P in A. discriminate. }
        clear - G. induction ts as [|t ts IH].
        * exfalso. apply G. intros t [].
        * assert (DEC : too_long t \/ ~ too_long t).
          { unfold too_long. destruct (as_needed && Nat.leb (length (t_entries t)) (target (t_x t) (t_y t)))%bool eqn:A.
            - apply keeps_spec in A. right. tauto.
            - assert (A' : ~ keeps t) by (rewrite <- keeps_spec; congruence).
              destruct (compress t) as [es|x]; [|right; intros (_ & es & X & _); discriminate].
              destruct (Nat.ltb_spec (target (t_x t) (t_y t)) (length es)).
              + left. split; eauto.
              + right. intros (_ & es' & X & Y). injection X as <-. lia. }
          destruct DEC as [Y|Y]; [exists t; split; [left; auto|auto]|].
          destruct IH as (x & I & X); [|exists x; split; [right; auto|auto]].
          intro A. apply G. intros x [<-|I]; auto.
      + injection D as ->. destruct X as [X|X]; auto.
  Qed.
End Driver.
