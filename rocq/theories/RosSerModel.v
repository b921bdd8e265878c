(** Model of serialization_ros.hpp (ROS messages) and of the joint's own serialization in
    simple_linked_robot_model.hpp:60-92.

    Doubles are their 64-bit patterns (as in [TUint 8] of SerTypes), frame names are strings of bytes of type
    [char].  The counts added up by the code are uint64_t; they are natural numbers here (a buffer is far
    shorter than 2^64).  [le] is the host's byte order, [dbg] whether asserts are on, [maxr] the largest
    allocation. *)
From Verif Require Import Base SerModel SerTypes.
From Coq Require Import Strings.Byte.

(** std_msgs/Header, geometry_msgs/Point, Vector3, Quaternion, Pose, PoseStamped, Transform, TransformStamped:
    the fields named in serialization_ros.hpp:12-196. *)
Record header := { h_seq : N; h_sec : N; h_nsec : N; h_frame : list Z }.
Record point := { p_x : N; p_y : N; p_z : N }.
Record vector3 := { v_x : N; v_y : N; v_z : N }.
Record quaternion := { q_x : N; q_y : N; q_z : N; q_w : N }.
Record pose := { ps_position : point; ps_orientation : quaternion }.
Record pose_stamped := { pt_header : header; pt_pose : pose }.
Record transform := { t_translation : vector3; t_rotation : quaternion }.
Record transform_stamped := { ts_header : header; ts_transform : transform; ts_child : list Z }.

Section Ros.
  Variables (dbg le : bool) (maxr : N).

  (** The calls SerializeFixedSizePOD / DeserializeFixedSizePOD on double and uint32_t, and
      SerializeString / DeserializeString<char>. *)
  Definition ser_f64 : serializer N := ser false dbg le (TUint 8).
  Definition de_f64 : deserializer N := de false dbg le maxr (TUint 8).
  Definition ser_u32 : serializer N := ser false dbg le (TUint 4).
  Definition de_u32 : deserializer N := de false dbg le maxr (TUint 4).
  Definition ser_str : serializer (list Z) := ser false dbg le (TString 1).
  Definition de_str : deserializer (list Z) := de false dbg le maxr (TString 1).

  (** serialization_ros.hpp:12-19 SerializeHeader. *)
  Definition ser_header : serializer header := fun h buf =>
    let! r1 := ser_u32 (h_seq h) buf in
    let! r2 := ser_u32 (h_sec h) (fst r1) in
    let! r3 := ser_u32 (h_nsec h) (fst r2) in
    let! r4 := ser_str (h_frame h) (fst r3) in
    Ok (fst r4, snd r1 + snd r2 + snd r3 + snd r4).

  (** serialization_ros.hpp:21-38 DeserializeHeader (30 reads nsec with the type of sec; both are uint32_t). *)
  Definition de_header : deserializer header := fun buf cur =>
    let! r1 := de_u32 buf cur in
    let! r2 := de_u32 buf (cur + snd r1) in
    let! r3 := de_u32 buf (cur + (snd r1 + snd r2)) in
    let! r4 := de_str buf (cur + (snd r1 + snd r2 + snd r3)) in
    Ok ({| h_seq := fst r1; h_sec := fst r2; h_nsec := fst r3; h_frame := fst r4 |},
        snd r1 + snd r2 + snd r3 + snd r4).

  (** serialization_ros.hpp:40-46 SerializePoint. *)
  Definition ser_point : serializer point := fun p buf =>
    let! r1 := ser_f64 (p_x p) buf in
    let! r2 := ser_f64 (p_y p) (fst r1) in
    let! r3 := ser_f64 (p_z p) (fst r2) in
    Ok (fst r3, snd r1 + snd r2 + snd r3).

  (** serialization_ros.hpp:48-62 DeserializePoint. *)
  Definition de_point : deserializer point := fun buf cur =>
    let! r1 := de_f64 buf cur in
    let! r2 := de_f64 buf (cur + snd r1) in
    let! r3 := de_f64 buf (cur + (snd r1 + snd r2)) in
    Ok ({| p_x := fst r1; p_y := fst r2; p_z := fst r3 |}, snd r1 + snd r2 + snd r3).

  (** serialization_ros.hpp:64-70 SerializeVector3. *)
  Definition ser_vector3 : serializer vector3 := fun v buf =>
    let! r1 := ser_f64 (v_x v) buf in
    let! r2 := ser_f64 (v_y v) (fst r1) in
    let! r3 := ser_f64 (v_z v) (fst r2) in
    Ok (fst r3, snd r1 + snd r2 + snd r3).

  (** serialization_ros.hpp:72-86 DeserializeVector3. *)
  Definition de_vector3 : deserializer vector3 := fun buf cur =>
    let! r1 := de_f64 buf cur in
    let! r2 := de_f64 buf (cur + snd r1) in
    let! r3 := de_f64 buf (cur + (snd r1 + snd r2)) in
    Ok ({| v_x := fst r1; v_y := fst r2; v_z := fst r3 |}, snd r1 + snd r2 + snd r3).

  (** serialization_ros.hpp:88-95 SerializeQuaternion. *)
  Definition ser_quaternion : serializer quaternion := fun q buf =>
    let! r1 := ser_f64 (q_x q) buf in
    let! r2 := ser_f64 (q_y q) (fst r1) in
    let! r3 := ser_f64 (q_z q) (fst r2) in
    let! r4 := ser_f64 (q_w q) (fst r3) in
    Ok (fst r4, snd r1 + snd r2 + snd r3 + snd r4).

  (** serialization_ros.hpp:97-114 DeserializeQuaternion (110 reads w with the type of z, also double). *)
  Definition de_quaternion : deserializer quaternion := fun buf cur =>
    let! r1 := de_f64 buf cur in
    let! r2 := de_f64 buf (cur + snd r1) in
    let! r3 := de_f64 buf (cur + (snd r1 + snd r2)) in
    let! r4 := de_f64 buf (cur + (snd r1 + snd r2 + snd r3)) in
    Ok ({| q_x := fst r1; q_y := fst r2; q_z := fst r3; q_w := fst r4 |},
        snd r1 + snd r2 + snd r3 + snd r4).

  (** serialization_ros.hpp:116-121 SerializePose. *)
  Definition ser_pose : serializer pose := fun p buf =>
    let! r1 := ser_point (ps_position p) buf in
    let! r2 := ser_quaternion (ps_orientation p) (fst r1) in
    Ok (fst r2, snd r1 + snd r2).

  (** serialization_ros.hpp:123-134 DeserializePose. *)
  Definition de_pose : deserializer pose := fun buf cur =>
    let! r1 := de_point buf cur in
    let! r2 := de_quaternion buf (cur + snd r1) in
    Ok ({| ps_position := fst r1; ps_orientation := fst r2 |}, snd r1 + snd r2).

  (** serialization_ros.hpp:136-141 SerializePoseStamped. *)
  Definition ser_pose_stamped : serializer pose_stamped := fun p buf =>
    let! r1 := ser_header (pt_header p) buf in
    let! r2 := ser_pose (pt_pose p) (fst r1) in
    Ok (fst r2, snd r1 + snd r2).

  (** serialization_ros.hpp:143-154 DeserializePoseStamped. *)
  Definition de_pose_stamped : deserializer pose_stamped := fun buf cur =>
    let! r1 := de_header buf cur in
    let! r2 := de_pose buf (cur + snd r1) in
    Ok ({| pt_header := fst r1; pt_pose := fst r2 |}, snd r1 + snd r2).

  (** serialization_ros.hpp:156-161 SerializeTransform. *)
  Definition ser_transform : serializer transform := fun t buf =>
    let! r1 := ser_vector3 (t_translation t) buf in
    let! r2 := ser_quaternion (t_rotation t) (fst r1) in
    Ok (fst r2, snd r1 + snd r2).

  (** serialization_ros.hpp:163-174 DeserializeTransform. *)
  Definition de_transform : deserializer transform := fun buf cur =>
    let! r1 := de_vector3 buf cur in
    let! r2 := de_quaternion buf (cur + snd r1) in
    Ok ({| t_translation := fst r1; t_rotation := fst r2 |}, snd r1 + snd r2).

  (** serialization_ros.hpp:176-183 SerializeTransformStamped. *)
  Definition ser_transform_stamped : serializer transform_stamped := fun t buf =>
    let! r1 := ser_header (ts_header t) buf in
    let! r2 := ser_transform (ts_transform t) (fst r1) in
    let! r3 := ser_str (ts_child t) (fst r2) in
    Ok (fst r3, snd r1 + snd r2 + snd r3).

  (** serialization_ros.hpp:185-200 DeserializeTransformStamped. *)
  Definition de_transform_stamped : deserializer transform_stamped := fun buf cur =>
    let! r1 := de_header buf cur in
    let! r2 := de_transform buf (cur + snd r1) in
    let! r3 := de_str buf (cur + (snd r1 + snd r2)) in
    Ok ({| ts_header := fst r1; ts_transform := fst r2; ts_child := fst r3 |},
        snd r1 + snd r2 + snd r3).

  (** ** Any ROS message, through roscpp's own serialization

      roscpp is outside the repository; it is used here with the contract of its header
      ros/serialization.h.  [body m] are the bytes it writes for [m]; [parse l] is the message it reads from
      the start of [l] (it throws when [l] is too short). *)
  Section Wrapper.
    Variables (M : Type) (body : M -> list byte) (parse : list byte -> outcome M).

    (** [ros::serialization::serializeMessage]: an array holding the length of the body as a uint32_t and the
        body; num_bytes is the length of the array; message_start points at the body, four bytes into the
        array. *)
    Definition ros_array (m : M) : list byte := mem_of le 4 (N.of_nat (length (body m))) ++ body m.
    Definition ros_num_bytes (m : M) : nat := length (ros_array m).
    Definition ros_message_start : nat := 4.

    (** serialization_ros.hpp:202-208 RosMessageSerializationWrapper: copies
        [message_start, message_start + num_bytes).  [after] are readable bytes following the array in memory:
        the C++ semantics is [after = []], a longer [after] says what happens when the read is let through. *)
    Definition ser_ros (after : list byte) : serializer M := fun m buf =>
      let! l := read_bytes (ros_array m ++ after) ros_message_start (ros_num_bytes m) in
      Ok (buf ++ l, ros_num_bytes m).

    (** serialization_ros.hpp:210-227 RosMessageDeserializationWrapper.  size_left wraps around when [cur] is
        past the end; the array new throws when it is too large; [&buffer[current]] needs an element there.
        [deserializeMessage] reads from the start of the copied bytes; serializationLength is [length (body m)]. *)
    Definition ros_size_left (buf : buffer) (cur : nat) : N :=
      ((N.of_nat (length buf) + 2 ^ 64 - N.of_nat cur mod 2 ^ 64) mod 2 ^ 64)%N.
    Definition de_ros : deserializer M := fun buf cur =>
      if (maxr <? ros_size_left buf cur)%N then Throw BadAlloc
      else if length buf <=? cur then UB
      else
        let! m := parse (skipn cur buf) in
        Ok (m, length (body m) + 4).
  End Wrapper.

  (** ** A joint of the linked robot *)

  (** simple_linked_robot_model.hpp:29-34: limits, value and type of a SimpleJointModel; the type is an
      enumeration (as the uint32_t it is stored as). *)
  Record raw_joint := { j_lower : N; j_upper : N; j_value : N; j_type : N }.

  (** simple_linked_robot_model.hpp:60-70 SerializeSelf. *)
  Definition ser_joint : serializer raw_joint := fun j buf =>
    let! r1 := ser_f64 (j_lower j) buf in
    let! r2 := ser_f64 (j_upper j) (fst r1) in
    let! r3 := ser_f64 (j_value j) (fst r2) in
    let! r4 := ser_u32 (j_type j) (fst r3) in
    Ok (fst r4, length (fst r4) - length buf).

  (** simple_linked_robot_model.hpp:72-92 DeserializeSelf: the joint is overwritten with what is read, without
      any check. *)
  Definition de_joint : deserializer raw_joint := fun buf cur =>
    let! r1 := de_f64 buf cur in
    let! r2 := de_f64 buf (cur + snd r1) in
    let! r3 := de_f64 buf (cur + snd r1 + snd r2) in
    let! r4 := de_u32 buf (cur + snd r1 + snd r2 + snd r3) in
    Ok ({| j_lower := fst r1; j_upper := fst r2; j_value := fst r3; j_type := fst r4 |},
        cur + snd r1 + snd r2 + snd r3 + snd r4 - cur).
End Ros.
