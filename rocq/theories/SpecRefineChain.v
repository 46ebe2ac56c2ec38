(** What it means that a chain in memory and a chain of values are in the same condition.
    Independent of the code in ModelHeap.v; only its objects are mentioned. *)
From Verif Require Import Base ModelState ModelChain ModelLikelihood ModelHeap SpecHeap SpecRefine.

(** A saved item in memory (numbers, a saved array, a list of dictionaries, ...) and the saved item
    of the model with values.  What is not a prediction is never saved from a cache; the model with
    values has OAny 0 for the statistics of a move. *)
Inductive stands (h : heap) : hout -> ovalue -> Prop :=
| stands_int n : stands h (QInt n) (OInt n)
| stands_num r : stands h (QNum r) (ONum r)
| stands_arr b v : repv h b v -> (forall l, v <> Lst l) -> stands h (QArr b) (OArr v)
| stands_list l ds :
    Forall2 (Forall2 (fun kx ky => fst kx = fst ky /\ stands h (snd kx) (snd ky))) l ds ->
    stands h (QList l) (OList ds)
| stands_any o : stands h (QAny o) o
| stands_pred d : stands h (QPred (CPred d)) (OArr (Arr d))
| stands_cany n : stands h (QPred (CAny n)) (OAny n)
| stands_stats l : stands h (QPred (CStats l)) (OAny 0).

(** The saved samples: the same keys in the same order, lists of the same length, and item by item
    the same. *)
Definition saved_stands (h : heap) (x : saved loc hout) (y : saved state ovalue) : Prop :=
  match x, y with
  | SDict d, SDict d' =>
      Forall2 (fun kx ky => fst kx = fst ky /\ Forall2 (stands h) (snd kx) (snd ky)) d d'
  | _, _ => False
  end.

Record chain_stands (h : heap) (c : chain loc hout) (c' : chain state ovalue) : Prop := {
  cs_cur : rep_state h (c_cur c) (c_cur c');
  cs_temp : c_temp c = c_temp c';
  cs_nprop : c_nprop c = c_nprop c';
  cs_nacc : c_nacc c = c_nacc c';
  cs_nprop_tot : c_nprop_tot c = c_nprop_tot c';
  cs_nacc_tot : c_nacc_tot c = c_nacc_tot c';
  cs_exc : c_exc c = c_exc c';
  cs_saved : saved_stands h (c_saved c) (c_saved c');
  cs_flag : c_flag c = c_flag c';
  cs_log : c_log c = c_log c'
}.

(** A likelihood in memory that computes, from objects that stand for two states, what the
    likelihood with values computes from the states, and saves the same in their caches. *)
Definition likelihood_reads (ll : loglike)
    (like : heap -> loc -> loc -> R ->
            M ((dict centry * dict ovalue) * (dict centry * dict ovalue) * (ext + exn))) : Prop :=
  forall h a b s s' T tr, rep_state h a s -> rep_state h b s' ->
    like h a b T tr =
      match log_likelihood_ratio ll s s' T tr with
      | Ret (o, n, r) tr' => Ret ((st_cache o, st_extra o), (st_cache n, st_extra n), r) tr'
      | Err e tr' => Err e tr'
      | UBeh => UBeh
      | Starve => Starve
      end.
