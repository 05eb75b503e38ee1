-Q theories Verif
theories/Base.v
theories/M_Perm.v
theories/L_Perm.v
theories/M_IdxMap.v
theories/M_Slice.v
theories/S_Layout.v
theories/L_IdxMap.v
theories/L_Slice.v
theories/L_Layout.v
theories/P_Perm.v
theories/P_Layout.v
theories/P_Slice.v
theories/M_Loops.v
theories/S_Loops.v
theories/L_Loops.v
theories/P_Loops.v
theories/M_Assign.v
theories/S_Assign.v
theories/L_Assign.v
theories/P_Assign.v
theories/M_Expr.v
theories/S_Expr.v
theories/L_Expr.v
theories/P_Expr.v
theories/M_Transform.v
theories/S_Transform.v
theories/L_Transform.v
theories/L_Factory.v
theories/P_Transform.v
theories/M_Handle.v
theories/S_Handle.v
theories/L_Handle.v
theories/L_Own.v
theories/L_Run.v
theories/P_Handle.v
theories/M_Sso.v
theories/S_Sso.v
theories/L_Sso.v
theories/P_Sso.v
theories/M_Array.v
theories/S_Array.v
theories/L_Array.v
theories/P_Array.v
theories/M_Alloc.v
theories/S_Alloc.v
theories/L_Alloc.v
theories/L_Alloc2.v
theories/L_Alloc3.v
theories/P_Alloc.v
theories/M_SymGrp.v
theories/S_SymGrp.v
theories/L_SymGrp.v
theories/L_SymGrp2.v
theories/P_SymGrp.v
theories/M_Mpi.v
theories/S_Mpi.v
theories/L_Mpi.v
theories/L_Mpi2.v
theories/P_Mpi.v
theories/M_H5.v
theories/S_H5.v
theories/L_H5.v
theories/L_H52.v
theories/L_H53.v
theories/P_H5.v
theories/M_Clef.v
theories/S_Clef.v
theories/L_Clef.v
theories/L_Clef2.v
theories/L_Clef3.v
theories/P_Clef.v
theories/M_Blas.v
theories/S_Blas.v
theories/L_Blas.v
theories/L_Blas2.v
theories/L_Blas3.v
theories/L_Blas4.v
theories/L_Blas5.v
theories/L_Blas6.v
theories/P_Blas.v
theories/M_Lapack.v
theories/S_Lapack.v
theories/L_Lapack.v
theories/L_Lapack2.v
theories/L_Lapack3.v
theories/L_Lapack4.v
theories/L_Lu.v
theories/P_Lapack.v
theories/S_Det.v
theories/L_Det.v
theories/L_Ref.v
theories/P_Det.v
theories/M_RectStr.v
theories/S_RectStr.v
theories/L_RectStr.v
theories/P_RectStr.v
theories/M_MatOps.v
theories/P_MatOps.v
theories/M_Gelss.v
theories/S_Gelss.v
theories/L_Gelss.v
theories/P_Gelss.v
theories/M_Norm.v
theories/S_Norm.v
theories/P_Norm.v
theories/M_Print.v
theories/S_Print.v
theories/L_Print.v
theories/P_Print.v
theories/M_Numpy.v
theories/S_Numpy.v
theories/L_Numpy.v
theories/P_Numpy.v
theories/M_Testing.v
theories/S_Testing.v
theories/P_Testing.v
theories/M_Long.v
theories/S_Long.v
theories/P_Long.v
theories/M_Space.v
theories/S_Space.v
theories/P_Space.v
theories/M_Stdutil.v
theories/P_Stdutil.v
theories/M_Info.v
theories/M_Program.v
theories/S_Program.v
theories/L_Program.v
theories/L_Program1.v
theories/L_Program2.v
theories/P_Program.v
theories/S_Info.v
theories/P_Info.v
theories/P_Mpi2.v
theories/M_Throw.v
theories/S_Throw.v
theories/L_Throw.v
theories/P_Throw.v
theories/M_Threads.v
theories/M_Unsafe.v
theories/S_Threads.v
theories/L_Sched.v
theories/L_Threads.v
theories/L_Confine.v
theories/L_Join.v
theories/P_Threads.v
theories/M_Lsq.v
theories/S_Lsq.v
theories/P_Lsq.v
theories/S_Checks.v
theories/P_Checks.v
theories/M_ClefPrint.v
theories/S_ClefPrint.v
theories/L_ClefPrint.v
theories/P_ClefPrint.v
theories/M_PyOwn.v
theories/S_PyOwn.v
theories/L_PyOwn.v
theories/L_PyOwn2.v
theories/P_PyOwn.v
theories/M_Stored.v
theories/S_Stored.v
theories/L_Stored.v
theories/L_Stored2.v
theories/L_Stored3.v
theories/P_Stored.v
theories/M_Ints.v
theories/S_Ints.v
theories/L_Ints.v
theories/P_Ints.v
theories/M_Error.v
theories/S_Error.v
theories/L_Error.v
theories/P_Error.v
theories/M_Float.v
theories/S_Float.v
theories/L_Float.v
theories/L_Float2.v
theories/P_Float.v
theories/M_PyObj.v
theories/P_PyObj.v
theories/M_Complex.v
theories/S_Complex.v
theories/L_Complex.v
theories/P_Complex.v
theories/M_Stack.v
theories/S_Stack.v
theories/L_Stack.v
theories/P_Stack.v
theories/M_Small.v
theories/S_Small.v
theories/L_Small.v
theories/P_Small.v
theories/M_Square.v
theories/P_Square.v
theories/M_VThreads.v
theories/S_VThreads.v
theories/L_VThreads.v
theories/P_VThreads.v
theories/M_SThreads.v
theories/S_SThreads.v
theories/L_SThreads.v
theories/P_SThreads.v
theories/M_MpiProc.v
theories/S_MpiProc.v
theories/L_MpiProc.v
theories/L_MpiProc2.v
theories/P_MpiProc.v
theories/M_Policy.v
theories/P_Policy.v
theories/M_Bytes.v
theories/P_Bytes.v
