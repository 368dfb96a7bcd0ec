-Q theories Verif
theories/Base.v
theories/SlabModel.v
theories/BaseFacts.v
theories/Contraction.v
theories/SlabSpec.v
theories/SlabFacts.v
theories/SlabFacts2.v
theories/SlabFacts3.v
theories/SlabFacts4.v
theories/SlabFacts5.v
theories/SlabWitness.v
theories/SlabProps.v
theories/SphereModel.v
theories/SphereSpec.v
theories/SphereFacts.v
theories/SphereFacts2.v
theories/SphereWitness.v
theories/SphereProps.v
theories/MgModel.v
theories/MgSpec.v
theories/MgFacts.v
theories/MgFacts2.v
theories/MgFacts3.v
theories/MgFacts4.v
theories/MgFacts5.v
theories/MgFacts6.v
theories/MgFacts7.v
theories/MgWitness.v
theories/MgProps.v
theories/SupSpec.v
theories/SupFacts.v
theories/SupFacts2.v
theories/SupFacts3.v
theories/SupFacts4.v
theories/SupWitness.v
theories/SupProps.v
theories/DmdModel.v
theories/DmdSpec.v
theories/DmdFacts.v
theories/DmdFacts2.v
theories/DmdFacts3.v
theories/DmdFacts4.v
theories/DmdWitness.v
theories/DmdProps.v
theories/CritModel.v
theories/CritSpec.v
theories/CritFacts.v
theories/CritFacts2.v
theories/CritFacts3.v
theories/CritFacts4.v
theories/CritFacts5.v
theories/CritFacts6.v
theories/CritFacts7.v
theories/CritFacts8.v
theories/CritFacts9.v
theories/CritFacts10.v
theories/CritFacts11.v
theories/CritWitness.v
theories/CritWitness2.v
theories/CritProps.v
theories/CritProps2.v
theories/CritProps3.v
theories/CritProps4.v
theories/HybModel.v
theories/HybSpec.v
theories/HybFacts.v
theories/HybFacts2.v
theories/HybFacts3.v
theories/HybWitness.v
theories/HybProps.v
theories/MainModel.v
theories/MainSpec.v
theories/MainFacts.v
theories/MainFacts2.v
theories/MainWitness.v
theories/MainProps.v
theories/TimeModel.v
theories/TimeSpec.v
theories/TimeFacts.v
theories/TimeFacts2.v
theories/TimeFacts3.v
theories/TimeFacts4.v
theories/TimeFacts5.v
theories/TimeFacts6.v
theories/TimeFacts7.v
theories/TimeWitness.v
theories/TimeProps.v
theories/HkModel.v
theories/HkSpec.v
theories/HkFacts.v
theories/HkProps.v
theories/CramModel.v
theories/CramSpec.v
theories/CramFacts.v
theories/CramPoly.v
theories/CramFacts2.v
theories/CramFacts3.v
theories/CramWitness.v
theories/CramProps.v
theories/ManModel.v
theories/ManSpec.v
theories/ManFacts.v
theories/ManFacts2.v
theories/ManProps.v
theories/ConvSpec.v
theories/ConvFacts.v
theories/ConvFacts2.v
theories/ConvWitness.v
theories/ConvProps.v
theories/SrcModel.v
theories/SrcSpec.v
theories/SrcFacts.v
theories/SrcFacts2.v
theories/SrcFacts3.v
theories/SrcFacts4.v
theories/SrcFacts5.v
theories/SrcWitness.v
theories/SrcProps.v
theories/SigModel.v
theories/SigSpec.v
theories/SigFacts.v
theories/SigFacts2.v
theories/SigWitness.v
theories/SigProps.v
theories/MlfModel.v
theories/MlfSpec.v
theories/MlfFacts.v
theories/MlfFacts2.v
theories/MlfWitness.v
theories/MlfProps.v
theories/MltModel.v
theories/MltSpec.v
theories/MltFacts.v
theories/MltFacts2.v
theories/MltWitness.v
theories/MltProps.v
theories/MlmModel.v
theories/MlmSpec.v
theories/MlmFacts.v
theories/MlmFacts2.v
theories/MlmWitness.v
theories/MlmProps.v

theories/FixModel.v
theories/FixSpec.v
theories/FixFacts.v
theories/FixFacts2.v
theories/FixFacts3.v
theories/FixWitness.v
theories/FixProps.v
theories/FltModel.v
theories/FltSpec.v
theories/FltFacts.v
theories/FltFacts2.v
theories/FltFacts3.v
theories/FltFacts4.v
theories/FltFacts5.v
theories/FltFacts6.v
theories/FltFacts7.v
theories/FltFacts8.v
theories/FltWitness.v
theories/FltCritModel.v
theories/FltCritFacts.v
theories/FltCritFacts2.v
theories/FltCritFacts3.v
theories/FltProps.v
theories/FltCritProps.v
theories/TunModel.v
theories/TunSpec.v
theories/TunFacts.v
theories/TunFacts2.v
theories/TunFacts3.v
theories/TunFacts4.v
theories/TunFacts5.v
theories/TunFacts6.v
theories/TunWitness.v
theories/TunProps.v
theories/EnSpec.v
theories/EnFacts.v
theories/EnFacts2.v
theories/EnFacts3.v
theories/EnFacts4.v
theories/EnFacts5.v
theories/EnFacts6.v
theories/EnFacts7.v
theories/EnWitness.v
theories/EnProps.v
theories/DynSpec.v
theories/DynFacts.v
theories/DynFacts2.v
theories/DynFacts3.v
theories/DynFacts4.v
theories/DynFacts5.v
theories/DynFacts6.v
theories/DynFacts7.v
theories/DynWitness.v
theories/DynProps.v
theories/InfModel.v
theories/InfSpec.v
theories/InfFacts.v
theories/InfFacts2.v
theories/InfFacts3.v
theories/InfFacts4.v
theories/InfFacts5.v
theories/InfWitness.v
theories/InfProps.v
theories/OrdSpec.v
theories/OrdFacts.v
theories/OrdFacts2.v
theories/OrdFacts3.v
theories/OrdFacts4.v
theories/OrdFacts5.v
theories/OrdFacts6.v
theories/OrdFacts7.v
theories/OrdFacts8.v
theories/OrdFacts9.v
theories/OrdFacts10.v
theories/OrdFacts11.v
theories/OrdFacts12.v
theories/OrdFacts13.v
theories/OrdFacts14.v
theories/OrdFacts15.v
theories/OrdFacts16.v
theories/OrdFacts17.v
theories/OrdFacts18.v
theories/OrdFacts19.v
theories/OrdFacts20.v
theories/OrdWitness.v
theories/OrdProps.v
theories/AniSpec.v
theories/AniFacts.v
theories/AniFacts2.v
theories/AniFacts3.v
theories/AniFacts4.v
theories/AniFacts5.v
theories/AniFacts6.v
theories/AniWitness.v
theories/AniFacts7.v
theories/AniProps.v
theories/ShellSpec.v
theories/ShellFacts.v
theories/ShellFacts2.v
theories/ShellFacts3.v
theories/ShellFacts4.v
theories/ShellFacts5.v
theories/ShellFacts6.v
theories/ShellFacts7.v
theories/ShellFacts8.v
theories/ShellFacts9.v
theories/ShellFacts10.v
theories/ShellProps.v
