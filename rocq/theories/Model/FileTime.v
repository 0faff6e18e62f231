(** Model of the time stamp of export.cc:163-172 in a process with several
    threads: gmtime returns a pointer to one static object, which strftime then
    reads. Other code of the process may call gmtime too. *)
From Verif Require Import Base Model.Interleave Model.Export Model.FileName.

(** The members of the static struct tm that the format uses, in its order. *)
Inductive member := Year | Month | Day | Hour | Minute | Second.
Definition member_eqb (a b : member) : bool :=
  match a, b with
  | Year, Year | Month, Month | Day, Day | Hour, Hour | Minute, Minute | Second, Second => true
  | _, _ => false
  end.
Definition members : list member := [Year; Month; Day; Hour; Minute; Second].
Definition field (m : member) (u : utc) : N :=
  match m with
  | Year => tm_year u | Month => tm_mon u | Day => tm_day u
  | Hour => tm_hour u | Minute => tm_min u | Second => tm_sec u
  end.

(** What a thread is doing. *)
Inductive doing :=
| Elsewhere
| Filling (now : N) (todo : list member) (ours : bool)   (* in gmtime(&now); [ours]: for generateFilePath *)
| Copying (now : N) (got : list N).                      (* in strftime, these members were read *)

Record world := {
  w_tm : member -> N;                          (* the static object *)
  w_doing : tid -> doing;
  w_stamps : list (tid * N * option bytes)     (* finished: the thread, its time, its stamp; latest first *)
}.

Inductive action :=
| Stamp (t : tid) (now : N)      (* export.cc:163-164, then gmtime is called *)
| Other (t : tid) (now : N)      (* other code calls gmtime *)
| Put (t : tid) (m : member)     (* gmtime stores a member; in which order is up to it *)
| Get (t : tid).                 (* strftime reads the next member of the format *)

(** export.cc:166-172 with the members that were read (as [stamp]). *)
Definition made_of (got : list N) : utc :=
  {| tm_year := nth 0 got 0; tm_mon := nth 1 got 0; tm_day := nth 2 got 0;
     tm_hour := nth 3 got 0; tm_min := nth 4 got 0; tm_sec := nth 5 got 0 |}%N.
Definition stamp_of (u : utc) : option bytes :=
  match strftime stamp_room (timestamp u) with
  | Some written => Some (firstn (stamp_room - 1) (written ++ repeat NUL (stamp_room - length written)))
  | None => None
  end.

Definition step (w : world) (a : action) : option world :=
  let goes t d := {| w_tm := w_tm w; w_doing := tset (w_doing w) t d; w_stamps := w_stamps w |} in
  match a with
  | Stamp t now => match w_doing w t with Elsewhere => Some (goes t (Filling now members true)) | _ => None end
  | Other t now => match w_doing w t with Elsewhere => Some (goes t (Filling now members false)) | _ => None end
  | Put t m =>
      match w_doing w t with
      | Filling now todo ours =>
          if existsb (member_eqb m) todo then
            let rest := filter (fun x => negb (member_eqb m x)) todo in
            Some {| w_tm := fun x => if member_eqb m x then field m (gmtime now) else w_tm w x;
                    w_doing := tset (w_doing w) t
                      (match rest with
                       | [] => if ours then Copying now [] else Elsewhere
                       | _ => Filling now rest ours
                       end);
                    w_stamps := w_stamps w |}
          else None
      | _ => None
      end
  | Get t =>
      match w_doing w t with
      | Copying now got =>
          match nth_error members (length got) with
          | Some m =>
              let got' := got ++ [w_tm w m] in
              Some (if Nat.eqb (length got') 6
                    then {| w_tm := w_tm w; w_doing := tset (w_doing w) t Elsewhere; w_stamps := (t, now, stamp_of (made_of got')) :: w_stamps w |}
                    else goes t (Copying now got'))
          | None => None
          end
      | _ => None
      end
  end.

(** Static objects start as zero. *)
Definition world0 : world := {| w_tm := fun _ => 0%N; w_doing := fun _ => Elsewhere; w_stamps := [] |}.

(** The member a thread may access next, and whether it stores to it. *)
Definition may_access (w : world) (t : tid) (m : member) (stores : bool) : Prop :=
  match w_doing w t with
  | Elsewhere => False
  | Filling _ todo _ => stores = true /\ In m todo
  | Copying _ got => stores = false /\ nth_error members (length got) = Some m
  end.
