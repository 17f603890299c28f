(** Which calls only look at a container: the const member functions of each container and the
    member functions that return a reference (the client then reads through it), iteration, and
    comparison. Models no line of /repo: these are the calls that threads may make on containers
    they share. *)
From Verif Require Export Clients.
From Verif Require MapSpec ForwardSpec BackwardSpec LazySpec DlistSpec VecSpec FixedSpec VmapSpec SvmSpec.

Definition set_reads {K V} (op : MapSpec.m_op K V) : Prop :=
  match op with
  | MapSpec.MEmpty | MapSpec.MFind _ | MapSpec.MCount _ | MapSpec.MLower _
  | MapSpec.MForward | MapSpec.MBackward | MapSpec.MEqual => True
  | _ => False
  end.
Definition map_reads {K T} (op : MapSpec.map_op K T) : Prop :=
  match op with MapSpec.MapGen op => set_reads op | MapSpec.MapAt _ => True | _ => False end.
Definition forward_reads {V} (op : ForwardSpec.fl_op V) : Prop :=
  match op with
  | ForwardSpec.FFront | ForwardSpec.FEmpty | ForwardSpec.FContents | ForwardSpec.FEqual => True
  | _ => False
  end.
Definition backward_reads {V} (op : BackwardSpec.bl_op V) : Prop :=
  match op with
  | BackwardSpec.BFront | BackwardSpec.BBack | BackwardSpec.BEmpty | BackwardSpec.BContents
  | BackwardSpec.BEqual => True
  | _ => False
  end.
Definition lazy_reads {V} (op : LazySpec.lq_op V) : Prop :=
  match op with
  | LazySpec.QFront | LazySpec.QBack | LazySpec.QEmpty | LazySpec.QContents => True
  | _ => False
  end.
Definition list_reads {V} (op : DlistSpec.dl_op V) : Prop :=
  match op with
  | DlistSpec.DFront | DlistSpec.DBack | DlistSpec.DSize | DlistSpec.DEmpty | DlistSpec.DContents
  | DlistSpec.DBackwards | DlistSpec.DEqual => True
  | _ => False
  end.
Definition vector_reads {V} (op : VecSpec.ve_op V) : Prop :=
  match op with
  | VecSpec.EAt _ | VecSpec.EFront | VecSpec.EBack | VecSpec.ESize | VecSpec.EEmpty
  | VecSpec.ECapacity | VecSpec.EContents | VecSpec.EEqual => True
  | _ => False
  end.
Definition fixed_reads {V} (op : FixedSpec.fx_op V) : Prop :=
  match op with FixedSpec.FOp op => vector_reads op | FixedSpec.FFull => True end.
Definition vmap_reads {K T} (op : VmapSpec.vm_op K T) : Prop :=
  match op with
  | VmapSpec.MBase op => vector_reads op
  | VmapSpec.MFind _ | VmapSpec.MAt _ | VmapSpec.MCount _ => True
  | _ => False
  end.
Definition svm_reads {K T} (op : SvmSpec.sv_op K T) : Prop :=
  match op with
  | SvmSpec.QAt _ | SvmSpec.QFind _ | SvmSpec.QCount _ | SvmSpec.QEqualRange _ | SvmSpec.QLower _
  | SvmSpec.QUpper _ | SvmSpec.QSize | SvmSpec.QEmpty | SvmSpec.QContents => True
  | _ => False
  end.
