-Q theories Verif
theories/Lib/Atan2.v
theories/Lib/RealAux.v
theories/Lib/Vec3.v
theories/Model/ActionAngle.v
theories/Model/AdiabContract.v
theories/Model/Adiabatic.v
theories/Model/Ars.v
theories/Model/Brackets.v
theories/Model/CPot.v
theories/Model/CPotPlanar.v
theories/Model/CSerial.v
theories/Model/CSerialPlanar.v
theories/Model/CView.v
theories/Model/Config.v
theories/Model/Conversion.v
theories/Model/Coords.v
theories/Model/CoordsCov.v
theories/Model/CoordsJac.v
theories/Model/CoordsSky.v
theories/Model/CoordsSpheroid.v
theories/Model/CoordsVec.v
theories/Model/Derived.v
theories/Model/DiskDF.v
theories/Model/DiskExpansion.v
theories/Model/EOM.v
theories/Model/EvolvedDF.v
theories/Model/Friction.v
theories/Model/Impulse.v
theories/Model/Integrator.v
theories/Model/InterpRZ.v
theories/Model/IsoApprox.v
theories/Model/Jeans.v
theories/Model/King.v
theories/Model/KuzminKutuzov.v
theories/Model/Mass.v
theories/Model/Multi.v
theories/Model/Multipole.v
theories/Model/NBody.v
theories/Model/NonInertial.v
theories/Model/NumDeriv.v
theories/Model/OblateStaeckel.v
theories/Model/OrbitIndex.v
theories/Model/OrbitState.v
theories/Model/PotAPI.v
theories/Model/PotAxi.v
theories/Model/PotBars.v
theories/Model/PotEllipsoidal.v
theories/Model/PotNonAxi.v
theories/Model/PotPlanar.v
theories/Model/PotSpecial.v
theories/Model/PotSpiral.v
theories/Model/PowerDF.v
theories/Model/QuasiDF.v
theories/Model/RectForce.v
theories/Model/Reduce.v
theories/Model/RingDisk.v
theories/Model/RotVec.v
theories/Model/RungeKutta.v
theories/Model/SOS.v
theories/Model/SavePickles.v
theories/Model/SphHarm.v
theories/Model/Spherical.v
theories/Model/SphericalDF.v
theories/Model/SprayDF.v
theories/Model/Staeckel.v
theories/Model/StreamTrackFit.v
theories/Model/Symplectic.v
theories/Model/UnitCompat.v
theories/Model/Wrappers.v
theories/Model/WrappersPlanar.v
theories/Proofs/AdiabProofs.v
theories/Proofs/AdiabaticProofs.v
theories/Proofs/AngleProofs.v
theories/Proofs/ArsMass.v
theories/Proofs/ArsProofs.v
theories/Proofs/AxiProofs.v
theories/Proofs/AxiProofs2.v
theories/Proofs/AxiProofs3.v
theories/Proofs/AxiProofs4.v
theories/Proofs/BarProofs.v
theories/Proofs/BracketProofs.v
theories/Proofs/CPotLeaf.v
theories/Proofs/CPotPlanarProofs.v
theories/Proofs/CPotProofs.v
theories/Proofs/CSerialPlanarProofs.v
theories/Proofs/CSerialProofs.v
theories/Proofs/CatalogProofs.v
theories/Proofs/ChiPrim.v
theories/Proofs/ChiProofs.v
theories/Proofs/CovProofs.v
theories/Proofs/DP5Local.v
theories/Proofs/DehnenProofs.v
theories/Proofs/DensClasses.v
theories/Proofs/DensCut.v
theories/Proofs/DensMore.v
theories/Proofs/DensProofs.v
theories/Proofs/DensTrunc.v
theories/Proofs/DerivedProofs.v
theories/Proofs/DiskBox.v
theories/Proofs/DiskDFDeriv.v
theories/Proofs/DiskDFForm.v
theories/Proofs/DiskDFMoments.v
theories/Proofs/DiskDFMore.v
theories/Proofs/DiskDFRegular.v
theories/Proofs/DiskDFSample.v
theories/Proofs/DiskExpC.v
theories/Proofs/DiskExpDicts.v
theories/Proofs/DiskExpProofs.v
theories/Proofs/EOMCatalog.v
theories/Proofs/EOMIntegrals.v
theories/Proofs/EOMProofs.v
theories/Proofs/EllClass.v
theories/Proofs/EllCyl.v
theories/Proofs/EllExact.v
theories/Proofs/EllExactLaws.v
theories/Proofs/EllLaws.v
theories/Proofs/EllPoisson.v
theories/Proofs/EllProfiles.v
theories/Proofs/EllProofs.v
theories/Proofs/EllSetup.v
theories/Proofs/Elliptic.v
theories/Proofs/EvalProofs.v
theories/Proofs/FrameProofs.v
theories/Proofs/FrameProofs2.v
theories/Proofs/Gegenbauer.v
theories/Proofs/Improper.v
theories/Proofs/ImpulseProofs.v
theories/Proofs/ImpulseStraight.v
theories/Proofs/ImpulseStream.v
theories/Proofs/InterpProofs.v
theories/Proofs/IsoApproxProofs.v
theories/Proofs/IsochroneMotion.v
theories/Proofs/IsochroneProofs.v
theories/Proofs/JacProofs.v
theories/Proofs/JacProofs2.v
theories/Proofs/JacProofs3.v
theories/Proofs/JacProofs4.v
theories/Proofs/JacProofs5.v
theories/Proofs/JeansLos.v
theories/Proofs/JeansProofs.v
theories/Proofs/JzIntegral.v
theories/Proofs/KeplerEquation.v
theories/Proofs/KickBasics.v
theories/Proofs/KickSpheres.v
theories/Proofs/KingProofs.v
theories/Proofs/KuzminKutuzovProofs.v
theories/Proofs/LFOrder.v
theories/Proofs/Libration.v
theories/Proofs/MassProofs.v
theories/Proofs/MultiCyl.v
theories/Proofs/MultiProofs.v
theories/Proofs/MultiRadial.v
theories/Proofs/MultiTop.v
theories/Proofs/NBodyProofs.v
theories/Proofs/NeedleProofs.v
theories/Proofs/NonAxiProofs.v
theories/Proofs/NumDerivProofs.v
theories/Proofs/NumDisks.v
theories/Proofs/OblateStaeckelProofs.v
theories/Proofs/OrbitProofs.v
theories/Proofs/PlanarProofs.v
theories/Proofs/PotLift.v
theories/Proofs/PowerDFProofs.v
theories/Proofs/QuasiForm.v
theories/Proofs/QuasiGauss.v
theories/Proofs/QuasiMore.v
theories/Proofs/QuasiSample.v
theories/Proofs/RK4Local.v
theories/Proofs/RK6Local.v
theories/Proofs/RKConv.v
theories/Proofs/RKLinear.v
theories/Proofs/RKLoops.v
theories/Proofs/RKMain.v
theories/Proofs/RKOrder.v
theories/Proofs/RKStab.v
theories/Proofs/RazorDisk.v
theories/Proofs/RazorSurface.v
theories/Proofs/RectProofs.v
theories/Proofs/ReduceProofs.v
theories/Proofs/RotVecProofs.v
theories/Proofs/SOSMethod.v
theories/Proofs/SOSProofs.v
theories/Proofs/SkyProofs.v
theories/Proofs/SkyProofs2.v
theories/Proofs/SmoothCatalog.v
theories/Proofs/SmoothProofs.v
theories/Proofs/SpecialProofs.v
theories/Proofs/SphAngular.v
theories/Proofs/SphCyl.v
theories/Proofs/SphMass.v
theories/Proofs/SphNear.v
theories/Proofs/SphRadial.v
theories/Proofs/SphericalAngles.v
theories/Proofs/SphericalDFDensity.v
theories/Proofs/SphericalDFIntegrals.v
theories/Proofs/SphericalDFModels.v
theories/Proofs/SphericalDFProofs.v
theories/Proofs/SphericalDFSampling.v
theories/Proofs/SphericalDFWitness.v
theories/Proofs/SphericalOrbit.v
theories/Proofs/SpheroidProofs.v
theories/Proofs/SpiralBar.v
theories/Proofs/SpiralDensity.v
theories/Proofs/SpiralProofs.v
theories/Proofs/SpiralProofs2.v
theories/Proofs/SprayProofs.v
theories/Proofs/StaeckelAngles.v
theories/Proofs/StaeckelOrbit.v
theories/Proofs/StaeckelParts.v
theories/Proofs/StaeckelProofs.v
theories/Proofs/StaeckelProofs2.v
theories/Proofs/StaeckelWitness.v
theories/Proofs/SubstPrim.v
theories/Proofs/Superposition.v
theories/Proofs/SymplecticProofs.v
theories/Proofs/UnitsProofs.v
theories/Proofs/VecProofs.v
theories/Proofs/VerticalAngles.v
theories/Proofs/WrapProofs.v
theories/Proofs/WrapProofs2.v
theories/Proofs/WrapProofs3.v
theories/Props/C01.v
theories/Props/C02.v
theories/Props/C03.v
theories/Props/C04.v
theories/Props/C05.v
theories/Props/C06.v
theories/Props/C07.v
theories/Props/C08.v
theories/Props/C09.v
theories/Props/C10.v
theories/Props/C11.v
theories/Props/C12.v
theories/Props/C13.v
theories/Props/C14.v
theories/Props/C15.v
theories/Props/C16.v
theories/Props/C17.v
theories/Props/C18.v
theories/Props/C19.v
theories/Props/C20.v
theories/Props/C21.v
theories/Props/C22.v
theories/Props/C23.v
theories/Props/C24.v
theories/Props/C25.v
theories/Props/C26.v
theories/Props/C27.v
theories/Props/C28.v
theories/Props/C29.v
theories/Props/C30.v
theories/Props/C31.v
theories/Props/C32.v
theories/Props/C33.v
theories/Props/C34.v
theories/Props/C35.v
theories/Props/C36.v
theories/Props/C37.v
theories/Props/C38.v
theories/Props/C39.v
theories/Props/C40.v
theories/Props/C41.v
theories/Props/C42.v
theories/Props/C43.v
theories/Props/C44.v
theories/Props/C45.v
theories/Props/C46.v
theories/Props/C47.v
theories/Props/C48.v
theories/Props/C49.v
theories/Props/C50.v
theories/Props/C51.v
theories/Props/C52.v
theories/Props/C53.v
theories/Props/C54.v
theories/Props/C55.v
theories/Props/C56.v
theories/Props/C57.v
theories/Props/C58.v
theories/Props/C59.v
theories/Props/C60.v
theories/Props/C61.v
theories/Props/C62.v
theories/Props/C63.v
theories/Props/C64.v
theories/Props/C65.v
theories/Props/C66.v
theories/Props/C67.v
theories/Props/C68.v
theories/Props/C69.v
theories/Props/C70.v
theories/Props/C71.v
theories/Props/C72.v
theories/Props/C73.v
theories/Props/C74.v
theories/Spec/ActionAngleSpec.v
theories/Spec/AdiabSpec.v
theories/Spec/AdiabaticSpec.v
theories/Spec/ArsSpec.v
theories/Spec/BracketSpec.v
theories/Spec/CPotPlanarSpec.v
theories/Spec/CPotSpec.v
theories/Spec/CSerialPlanarSpec.v
theories/Spec/CSerialSpec.v
theories/Spec/Catalog.v
theories/Spec/CovSpec.v
theories/Spec/DensSpec.v
theories/Spec/DerivedSpec.v
theories/Spec/DiskDFSpec.v
theories/Spec/DiskExpSpec.v
theories/Spec/EOMSpec.v
theories/Spec/EllipsoidalSpec.v
theories/Spec/EvolvedSpec.v
theories/Spec/ExpansionSpec.v
theories/Spec/FlattenSpec.v
theories/Spec/FrameSpec.v
theories/Spec/InterpSpec.v
theories/Spec/JacSpec.v
theories/Spec/JeansSpec.v
theories/Spec/KickSpec.v
theories/Spec/KingSpec.v
theories/Spec/MassSpec.v
theories/Spec/MultipoleSpec.v
theories/Spec/NBodySpec.v
theories/Spec/NumSpec.v
theories/Spec/OblateSpec.v
theories/Spec/OrderSpec.v
theories/Spec/PlanarSpec.v
theories/Spec/PotApiSpec.v
theories/Spec/PotSpec.v
theories/Spec/PowerDFSpec.v
theories/Spec/QuasiDFSpec.v
theories/Spec/ReduceSpec.v
theories/Spec/RingSpec.v
theories/Spec/SOSSpec.v
theories/Spec/SkySpec.v
theories/Spec/SmoothSpec.v
theories/Spec/SphericalDFSpec.v
theories/Spec/SphericalSpec.v
theories/Spec/SpiralBarSpec.v
theories/Spec/SpraySpec.v
theories/Spec/StaeckelSpec.v
theories/Spec/SuperSpec.v
theories/Spec/SymplecticSpec.v
theories/Spec/UnitsSpec.v
