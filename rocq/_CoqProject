-Q theories Verif
theories/Base.v
theories/Basis_Model.v
theories/Basis_Proofs.v
theories/Basis_Props.v
theories/Basis_Spec.v
theories/Bessel_Model.v
theories/Bessel_Proofs.v
theories/Bessel_Proofs2.v
theories/Bessel_Proofs3.v
theories/Bessel_Props.v
theories/Bessel_Spec.v
theories/CMat.v
theories/Cavity_Model.v
theories/Cavity_Proofs.v
theories/Cavity_Proofs2.v
theories/Cavity_Proofs3.v
theories/Cavity_Props.v
theories/CellMap_Model.v
theories/CellMap_Proofs.v
theories/CellMap_Proofs2.v
theories/CellMap_Proofs3.v
theories/CellMap_Proofs4.v
theories/CellMap_Proofs5.v
theories/CellMap_Props.v
theories/CellMap_Spec.v
theories/Commands_Model.v
theories/Commands_Proofs.v
theories/Commands_Proofs2.v
theories/Commands_Proofs3.v
theories/Commands_Proofs4.v
theories/Commands_Props.v
theories/Commands_Spec.v
theories/Converge_Model.v
theories/Converge_Proofs.v
theories/Converge_Props.v
theories/Converge_Spec.v
theories/Convert_Model.v
theories/Convert_Proofs.v
theories/Convert_Props.v
theories/Convert_Spec.v
theories/Coulomb_Model.v
theories/Coulomb_Proofs.v
theories/Coulomb_Proofs2.v
theories/Coulomb_Proofs3.v
theories/Coulomb_Proofs4.v
theories/Coulomb_Proofs5.v
theories/Coulomb_Props.v
theories/Coulomb_Spec.v
theories/Crc_Model.v
theories/Crc_Proofs.v
theories/Crc_Props.v
theories/Crc_Spec.v
theories/Deriv_Model.v
theories/Deriv_Proofs.v
theories/Deriv_Proofs2.v
theories/Deriv_Props.v
theories/Deriv_Spec.v
theories/Dynamics_Model.v
theories/Dynamics_Proofs.v
theories/Dynamics_Proofs2.v
theories/Dynamics_Proofs3.v
theories/Dynamics_Proofs4.v
theories/Dynamics_Proofs5.v
theories/Dynamics_Proofs6.v
theories/Dynamics_Proofs7.v
theories/Dynamics_Props.v
theories/Dynamics_Spec.v
theories/EOS_Model.v
theories/EOS_Proofs.v
theories/EOS_Props.v
theories/EOS_Spec.v
theories/ElecGrad_Model.v
theories/ElecGrad_Proofs.v
theories/ElecGrad_Proofs2.v
theories/ElecGrad_Proofs3.v
theories/ElecGrad_Proofs4.v
theories/ElecGrad_Proofs5.v
theories/ElecGrad_Props.v
theories/ElecGrad_Spec.v
theories/Embed_Model.v
theories/Embed_Proofs.v
theories/Embed_Proofs2.v
theories/Embed_Proofs3.v
theories/Embed_Proofs4.v
theories/Embed_Proofs5.v
theories/Embed_Proofs6.v
theories/Embed_Props.v
theories/Embed_Spec.v
theories/Energy_Model.v
theories/Energy_Proofs.v
theories/Energy_Props.v
theories/Energy_Spec.v
theories/EnumMap_Model.v
theories/EnumMap_Proofs.v
theories/EnumMap_Props.v
theories/Euler_Model.v
theories/Euler_Proofs.v
theories/Euler_Proofs2.v
theories/Euler_Proofs3.v
theories/Euler_Props.v
theories/Euler_Spec.v
theories/Ewald_Model.v
theories/Ewald_Proofs.v
theories/Ewald_Proofs10.v
theories/Ewald_Proofs2.v
theories/Ewald_Proofs3.v
theories/Ewald_Proofs4.v
theories/Ewald_Proofs5.v
theories/Ewald_Proofs6.v
theories/Ewald_Proofs7.v
theories/Ewald_Proofs8.v
theories/Ewald_Proofs9.v
theories/Ewald_Props.v
theories/Ewald_Spec.v
theories/ExCompute_Model.v
theories/ExCompute_Proofs.v
theories/ExCompute_Proofs2.v
theories/ExCompute_Proofs3.v
theories/ExCompute_Proofs4.v
theories/ExCompute_Proofs5.v
theories/ExCompute_Props.v
theories/ExCompute_Spec.v
theories/ExKernel_Model.v
theories/ExKernel_Proofs.v
theories/ExKernel_Proofs2.v
theories/ExKernel_Proofs3.v
theories/ExKernel_Proofs4.v
theories/ExKernel_Props.v
theories/ExKernel_Spec.v
theories/ExPairs_Model.v
theories/ExPairs_Proofs.v
theories/ExPairs_Proofs2.v
theories/ExPairs_Proofs3.v
theories/ExPairs_Proofs4.v
theories/ExPairs_Proofs5.v
theories/ExPairs_Proofs6.v
theories/ExPairs_Props.v
theories/ExPairs_Spec.v
theories/Exchange_Model.v
theories/Exchange_Proofs.v
theories/Exchange_Proofs2.v
theories/Exchange_Proofs3.v
theories/Exchange_Proofs4.v
theories/Exchange_Proofs5.v
theories/Exchange_Proofs6.v
theories/Exchange_Proofs7.v
theories/Exchange_Props.v
theories/Exchange_Spec.v
theories/FFTBox_Model.v
theories/FFTBox_Proofs.v
theories/FFTBox_Proofs2.v
theories/FFTBox_Proofs3.v
theories/FFTBox_Proofs4.v
theories/FFTBox_Props.v
theories/FFTBox_Spec.v
theories/FMT_Model.v
theories/FMT_Proofs.v
theories/FMT_Proofs2.v
theories/FMT_Props.v
theories/FMT_Spec.v
theories/FillGrad_Model.v
theories/FillGrad_Proofs.v
theories/FillGrad_Proofs2.v
theories/FillGrad_Props.v
theories/FillGrad_Spec.v
theories/Fillings_Model.v
theories/Fillings_Proofs.v
theories/Fillings_Proofs2.v
theories/Fillings_Props.v
theories/Fillings_Spec.v
theories/GGA_Model.v
theories/GGA_Proofs.v
theories/GGA_Proofs2.v
theories/GGA_Proofs3.v
theories/GGA_Props.v
theories/Gauss.v
theories/Grid_Model.v
theories/Grid_Proofs.v
theories/Grid_Props.v
theories/Grid_Spec.v
theories/IO_Model.v
theories/IO_Proofs.v
theories/IO_Proofs2.v
theories/IO_Props.v
theories/IO_Spec.v
theories/IntUtil_Model.v
theories/IntUtil_Proofs.v
theories/IntUtil_Props.v
theories/Ions_Model.v
theories/Ions_Proofs.v
theories/Ions_Proofs10.v
theories/Ions_Proofs2.v
theories/Ions_Proofs3.v
theories/Ions_Proofs4.v
theories/Ions_Proofs5.v
theories/Ions_Proofs6.v
theories/Ions_Proofs7.v
theories/Ions_Proofs8.v
theories/Ions_Proofs9.v
theories/Ions_Props.v
theories/Ions_Spec.v
theories/KPoints_Model.v
theories/KPoints_Proofs.v
theories/KPoints_Proofs2.v
theories/KPoints_Proofs3.v
theories/KPoints_Proofs4.v
theories/KPoints_Proofs5.v
theories/KPoints_Props.v
theories/KPoints_Spec.v
theories/LBFGS_Proofs.v
theories/LBFGS_Spec.v
theories/LDA_Model.v
theories/LDA_Proofs.v
theories/LDA_Proofs2.v
theories/LDA_Props.v
theories/Lattice_Model.v
theories/Lattice_Proofs.v
theories/Lattice_Proofs2.v
theories/Lattice_Proofs3.v
theories/Lattice_Props.v
theories/Lattice_Spec.v
theories/LinSolve_Model.v
theories/LinSolve_Proofs.v
theories/LinSolve_Proofs2.v
theories/LinSolve_Proofs3.v
theories/LinSolve_Props.v
theories/LinSolve_Spec.v
theories/MatFun_Model.v
theories/MatFun_Proofs.v
theories/MatFun_Proofs2.v
theories/MatFun_Proofs3.v
theories/MatFun_Proofs4.v
theories/MatFun_Props.v
theories/MatFun_Spec.v
theories/Matrix_Model.v
theories/Matrix_Proofs.v
theories/Matrix_Proofs2.v
theories/Matrix_Proofs3.v
theories/Matrix_Proofs4.v
theories/Matrix_Props.v
theories/Matrix_Spec.v
theories/Mem_Model.v
theories/Mem_Proofs.v
theories/Mem_Proofs2.v
theories/Mem_Proofs3.v
theories/Mem_Proofs4.v
theories/Mem_Proofs5.v
theories/Mem_Props.v
theories/Mem_Spec.v
theories/MinQuad_Proofs.v
theories/MinQuad_Proofs2.v
theories/MinQuad_Props.v
theories/MinQuad_Spec.v
theories/Minimize_Model.v
theories/Minimize_Proofs.v
theories/Minimize_Proofs2.v
theories/Minimize_Proofs3.v
theories/Minimize_Props.v
theories/Minimize_Spec.v
theories/Minres_Model.v
theories/Minres_Proofs.v
theories/Minres_Proofs2.v
theories/Minres_Proofs3.v
theories/Minres_Props.v
theories/Minres_Spec.v
theories/NLPCM_Model.v
theories/NLPCM_Proofs.v
theories/NLPCM_Proofs2.v
theories/NLPCM_Props.v
theories/Neutral_Model.v
theories/Neutral_Proofs.v
theories/Neutral_Props.v
theories/Neutral_Spec.v
theories/Phonon_Model.v
theories/Phonon_Proofs.v
theories/Phonon_Proofs10.v
theories/Phonon_Proofs2.v
theories/Phonon_Proofs3.v
theories/Phonon_Proofs4.v
theories/Phonon_Proofs5.v
theories/Phonon_Proofs6.v
theories/Phonon_Proofs7.v
theories/Phonon_Proofs8.v
theories/Phonon_Proofs9.v
theories/Phonon_Props.v
theories/Phonon_Spec.v
theories/Poly_Proofs.v
theories/Pulay_Model.v
theories/Pulay_Proofs.v
theories/Pulay_Proofs2.v
theories/Pulay_Proofs3.v
theories/Pulay_Proofs4.v
theories/Pulay_Props.v
theories/Pulay_Spec.v
theories/Radial_Model.v
theories/Radial_Proofs.v
theories/Radial_Proofs2.v
theories/Radial_Props.v
theories/Radial_Spec.v
theories/Reader_Model.v
theories/Reader_Proofs.v
theories/Reader_Proofs2.v
theories/Reader_Proofs3.v
theories/Reader_Proofs4.v
theories/Reader_Props.v
theories/Reader_Spec.v
theories/RealUtil.v
theories/SMap.v
theories/SO3_Model.v
theories/SO3_Proofs.v
theories/SO3_Props.v
theories/SO3_Spec.v
theories/Smear_Model.v
theories/Smear_Proofs.v
theories/Smear_Proofs2.v
theories/Smear_Proofs3.v
theories/Smear_Props.v
theories/Smear_Spec.v
theories/Spin_Model.v
theories/Spin_Proofs.v
theories/Spin_Proofs2.v
theories/Spin_Props.v
theories/Spin_Spec.v
theories/Spline_Model.v
theories/Spline_Proofs.v
theories/Spline_Proofs2.v
theories/Spline_Proofs3.v
theories/Spline_Proofs4.v
theories/Spline_Props.v
theories/Spline_Spec.v
theories/StateIO_Model.v
theories/StateIO_Proofs.v
theories/StateIO_Props.v
theories/Sym_Model.v
theories/Sym_Proofs.v
theories/Sym_Proofs10.v
theories/Sym_Proofs2.v
theories/Sym_Proofs3.v
theories/Sym_Proofs4.v
theories/Sym_Proofs5.v
theories/Sym_Proofs6.v
theories/Sym_Proofs7.v
theories/Sym_Proofs8.v
theories/Sym_Proofs9.v
theories/Sym_Props.v
theories/Sym_Spec.v
theories/Tetra_Model.v
theories/Tetra_Proofs.v
theories/Tetra_Proofs2.v
theories/Tetra_Proofs3.v
theories/Tetra_Proofs4.v
theories/Tetra_Proofs5.v
theories/Tetra_Proofs6.v
theories/Tetra_Props.v
theories/Tetra_Props2.v
theories/Tetra_Spec.v
theories/Translate_Model.v
theories/Translate_Proofs.v
theories/Translate_Proofs2.v
theories/Translate_Proofs3.v
theories/Translate_Props.v
theories/Translate_Spec.v
theories/VdW_Model.v
theories/VdW_Proofs.v
theories/VdW_Proofs2.v
theories/VdW_Proofs3.v
theories/VdW_Proofs4.v
theories/VdW_Proofs5.v
theories/VdW_Proofs6.v
theories/VdW_Proofs7.v
theories/VdW_Proofs8.v
theories/VdW_Proofs9.v
theories/VdW_Props.v
theories/VdW_Spec.v
theories/Vec3_Facts.v
theories/Vec3_Model.v
theories/VecOps.v
theories/WPBE_Model.v
theories/WPBE_Proofs.v
theories/WPBE_Proofs2.v
theories/WPBE_Proofs3.v
theories/WPBE_Proofs4.v
theories/WPBE_Props.v
theories/WPBE_Spec.v
theories/WS_Model.v
theories/WS_Proofs.v
theories/WS_Proofs2.v
theories/WS_Proofs3.v
theories/WS_Props.v
theories/WS_Spec.v
theories/Weld_Model.v
theories/Weld_Proofs.v
theories/Weld_Props.v
theories/Weld_Spec.v
theories/WorkDiv_Model.v
theories/WorkDiv_Proofs.v
theories/WorkDiv_Proofs2.v
theories/WorkDiv_Props.v
theories/WorkDiv_Spec.v
theories/XR_Facts.v
theories/XR_Model.v
theories/Ylm_Model.v
theories/Ylm_Proofs.v
theories/Ylm_Proofs2.v
theories/Ylm_Proofs3.v
theories/Ylm_Proofs4.v
theories/Ylm_Proofs5.v
theories/Ylm_Props.v
theories/Ylm_Spec.v
